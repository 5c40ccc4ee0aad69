# Formal model of notarize/qlc in Rocq (Coq 8.16.1)

qlc reads a GraphQL introspection result and a directory tree of `.graphql` files, and writes a
TypeScript declaration file beside each of them plus one file of shared ("global") types.  This
directory contains a model of that program in Gallina and theorems about the model.

* `properties.jsonl` - the claims, in English (generated by `tools/props.py`).
* `MANIFEST.json` - which theorems stand for which claim (generated by `tools/manifest.py` from
  `tools/claims.py`).
* `rocq/theories` - the development; build with
  `coq_makefile -f _CoqProject -o Makefile && make -j4` in `rocq` (five to fifteen minutes on four cores).
* `seeded/LOG.jsonl` - wrong programs on which the theorems were tried out.
* This file - generated by `tools/design.py` from `tools/design_head.md` and the claims.

## 1. Trusted base

1. **Coq's kernel** (8.16.1), including its virtual machine: examples, refutations and fidelity tests
   are evaluated with `vm_compute`.
2. **Axioms: none.**  Every theorem named in MANIFEST.json is followed by `Print Assumptions`, and each
   prints `Closed under the global context`.  There is no `Axiom`, `Parameter`, `Admitted`, `admit`,
   open obligation, functor, module type or disabled kernel check in the sources.
   A scan of the *loaded libraries* (as done by `coqchk -o` or by the checking tool) lists seven names:
   `Coq.ssr.ssrunder.Under_rel.{Under_rel, Under_rel_from_rel, Under_relE, under_rel_done, Over_rel,
   over_rel, over_rel_done}`.  They are fields of a sealed module of the standard library, loaded
   because `Coq.Setoids.Setoid` (needed by `lia` and by rewriting) requires it; no theorem uses them, as `Print Assumptions` shows.
3. **The reading of the code.**  The model was written by reading /repo; nothing was extracted or run.
   Two things support it: each definition cites the file and lines it stands for, and `Fixtures.v`
   (generated by `tools/fixtures.py`) runs all 39 of the repository's own tests of the command
   (tests/cli.rs, schema.rs, typescript.rs) on the model: from the command line and the texts of the
   files (GraphQL, schema JSON, configuration JSON) through readers, work queue, compiler and renderer.
   It compares exit codes, the expected texts on standard output and every expected file byte for byte,
   under two different hash orders.  The words of serde_json and graphql_parser in error messages are
   not compared.  Those are tests of the model, not proofs.
4. **The specifications** in `Spec*.v`: what GraphQL and TypeScript mean is written down there,
   separately from the model.  `SpecGql` (type references and their values), `SpecSel` (field
   collection and validity of selections), `SpecResp` (responses of a server) follow the GraphQL
   specification; `SpecTs` (type expressions: syntax, reader, values), `SpecMod` (modules), `SpecRead` (reader of module texts) and `SpecDoc`
   (block comments) describe the fragment of TypeScript that occurs in generated files.

## 2. What is modelled

| code | model | remarks |
|------|-------|---------|
| src/graphql/schema/json.rs | `Schema.v`, `Decode.v`, `Json.v` | complete, from the text on |
| src/graphql/schema/field.rs | `Schema.v` | complete |
| src/graphql/schema.rs | `Schema.v`, `Main.v` (`parse_schema`) | complete |
| src/graphql/ir.rs | `Ir.v`, `Cli.v` (messages) | complete; traversals are values, explicit fuel for recursion depth |
| src/graphql/variable.rs | `Ir.v`, `Cli.v` (messages) | complete |
| src/typescript.rs, src/typescript/field.rs | `Typescript.v`, `Cli.v` (messages) | complete, to the exact bytes of the output |
| src/graphql.rs | `Graphql.v`, `Typescript.v` (configuration types) | complete over a file-system parameter |
| src/cli.rs | `Cli.v`, `Decode.v` (configuration file), `Colour.v` (colours), `Strsim.v` (suggestions), `Args.v` (command line) | complete |
| strsim 0.10.0, colored 2.0.4, clap 4.4.6, serde_json 1.0.107 (crates) | `Strsim.v`, `Colour.v`, `Args.v`, `Json.v` | the parts used, after their published source |
| src/worker_pool.rs | `Pool.v` (threads), `Main.v` (work items, aggregation), `Fine.v` (single file operations) | interleaving semantics |
| src/main.rs | `Main.v` (`qlc`) | complete |
| std::path | `Path.v` | the operations used, for Unix, on byte strings |
| pkg/npm/lib/postinstall.js | `Npm.v` | decision logic |
| pkg/npm/lib/download.js | `Download.v` | text of the query, the request body, a server's answer; effects on files |
| pkg/npm/package.json, lib/typed-documentnode.d.ts | `Package.v` | exported paths; names and numbers of parameters of exported types |
| pkg/npm/lib/index.js, lib/index.d.ts, bin, entries of package.json; path.join and the resolution of packages in Node.js | `Entry.v` | paths as texts; effects of the installer on files |
| .circleci/bin/*.sh, .circleci/config.yml, pkg/npm/package.json | `Release.v` | names, checksums, tags and contents of what is published |
| graphql-parser 0.4.0 (called in src/graphql.rs:71) | `Gql.v` | tokens and their positions, grammar, recursion limit |
| lib/typed-documentnode.d.ts: helpers | `Nodes.v` | conditional types with optional properties |

Conventions.

* `String` and `&str` are Coq `string`s (byte strings).  The code only ever cuts strings at ASCII
  characters it has found, or at positions whose failure to be a character boundary cannot arise; slicing
  out of range is an explicit panic.
* `HashMap`s are association lists.  Wherever the code iterates over one, the model asks an *order
  oracle* (`order`, `order_ok`), a parameter that may permute the entries differently at every site.
  Theorems hold for every such oracle; C07 is about the dependence on it.
* A `panic!` is the outcome `Panics`.  Unbounded recursion is `Diverges`: recursive functions take a
  depth bound, and "the code does not terminate" is "`Diverges` for every bound".  Theorems about
  results assume some bound that is enough; C12, C27 and C32 say exactly when there is one.
* Everything outside the program is a field of the record `env` (`Graphql.v`) or `world` (`Main.v`), over
  which the theorems quantify: the GraphQL parser, the file system, path resolution, success and failure
  of writes, the edit distance used for suggestions, hash orders, directory listings, the decoded
  command line and configuration.

## 3. What is not modelled

* serde_json: error texts; that decoding happens while reading (`Json.v` reads first and decodes then, which differs
  in nothing but the error text).  `qlc` itself takes the decoded data as a parameter, which C57, C58 and C67 instantiate.
* `graphql_parser::parse_query`: a function parameter from text to syntax tree or error text, so most claims hold for any
  parser. C69, C70 and the theorems named `_text` or `_text_partial` (C71 to C74, C76, C77, C79, C81, C82, C83, C84, C86, C87, C92, C93, C94, C95, C96, C97, C98, C99) are about a model of it (`Gql.v`), written after graphql-parser 0.4.0 as the crate's source is not in
  the repository; there, which numbers and string escapes it accepts remain parameters and the texts of its errors are not
  modelled.
  The other claims say nothing about which texts parse and take positions as the parser gives them.
  The syntax tree keeps arguments, directives and default values as opaque text.
* clap: texts of help and usage errors, arguments that are not UTF-8.  `qlc` takes the decoded arguments; `qlc_command`
  (`Args.v`, C65) starts from the words of the command line.
* Colours and the edit distance of strsim are not part of `qlc`: its output is the uncoloured one, and the
  distance is a parameter.  C63 instantiates the parameter, C64 relates coloured and uncoloured output.
* crossbeam: the channel is an unbounded FIFO queue with atomic send and receive.  Atomics are
  sequentially consistent, as in the code.  `Work::run` is one atomic step in
  `Pool.v`; `Fine.v` has the reads and writes of different workers interleave, and C62 says that this makes
  no difference unless a file that is read is also an output.  Writes in `Fine.v` go through arbitrary
  intermediate contents but end with the contents written (no two writers of one file mix theirs).  The 1 ms sleep changes nothing.
* The operating system: one file system state, changed only by qlc; directory listings fixed during a run;
  no signals, no exhausted memory, no output errors on the terminal.  Stack overflow is the only
  consequence of `Diverges`.
* Fairness: C38 and C40 say that runs can always end, or that every run has bounded length; no theorem
  assumes that the operating system schedules fairly.
* pkg/npm/lib/postinstall.js: timing, truncated transfers other than as a different body, other
  processes.  download.js: interrupted transfers.  Entry points: symbolic links, patterns and conditions in `exports`.
* Release scripts: failing commands other than grep, credentials, how GitHub renames files with unusual characters.
* Windows paths.

## 4. Layout of rocq/theories

* **Model** (no proofs): `Base`, `Schema`, `Ast`, `Ir`, `Typescript`, `Path`, `Cli`, `Graphql`, `Pool`,
  `Main`, `Fine`, `Decode`, `Npm`, `Package`, `Download`, `Nodes`, `Strsim`, `Colour`, `Args`, `Json`, `Release`, `Entry`, `Gql`.
* **Tests of the model**: `Fixtures`.
* **Specification** (independent of the model's helpers): `SpecTs`, `SpecGql`, `SpecSel`, `SpecIr`,
  `SpecMod`, `SpecFile`, `SpecVar`, `SpecShape`, `SpecDiag`, `SpecReg`, `SpecDecl`, `SpecResp`, `SpecCli`,
  `SpecPool`, `SpecTree`, `SpecPath`, `SpecLoad`, `SpecImport`, `SpecDoc`, `SpecGlobal`, `SpecFs`, `SpecRead`, `SpecKeys`, `SpecName`, `SpecStmt`, `SpecJson`, `SpecDownload`,
  `SpecEdit`, `SpecTerm`, `SpecLook`, `SpecArgs`, `SpecMsg`, `SpecJtext`, `SpecGtext`, `SpecGpos`, `SpecLayout`, `SpecLink`, `SpecInput`, `SpecExact`, `SpecClient`, `SpecAgain`, `SpecEnd`, `SpecProject`, `SpecGrow`, `SpecPart`, `SpecAssign`, `SpecRecast`, `SpecSetting`, `SpecRename`, `SpecMore`, `SpecPromise`, `SpecRequire`, `SpecWide`, `SpecRearrange`, `SpecRefactor`, `SpecDocs`, `SpecNarrow`, `SpecMove`, `SpecTrim`, `SpecPrune`, `SpecAdd`.
* **Lemmas**: `*Facts`, `*Main`, `*Props`, `SelRun`, `TravEq`, `CollectEq`, `FragExt`, `LinkData`, `LinkExt`, `RunDet`, `Rewrite`,
  `Compiled`, `DocDesc`, `FineSim`, `FineMore`, `ShapeIr`, `GlobalText`, `ImportTerm`; checkers used in examples: `RegCheck`,
  `IntroCheck`, `JsonCheck`; concrete surroundings for examples: `*Worlds`, `Worlds`.
* **Properties**: `PropCxx.v`, one per claim, each theorem followed by `Print Assumptions` and by examples
  that meet its hypotheses.

The main chain of reasoning for documents: `CollectMain` (field collection computes, per object type, the
occurrences that `SpecSel` prescribes) - `IrFacts`/`ShapeIr` (conversion to the intermediate
representation) - `RenderFacts`/`FileFacts` (the text written is the text of a module tree of `SpecMod`) -
`DescFacts`/`DeclFacts` (what the declarations of that tree say about each object type) - `RespFacts`
(responses inhabit the declared types).

How names are chosen: `Cxx_partial` proves the claim under a guard that the statement spells out;
`Cxx_exact` says that the guard is also necessary; `Cxx_refuted` exhibits a case in which the claim is
false of the code.  A claim that the code violates has status "partial" in the manifest.

## 5. Findings: where the code violates a claim

1. C01, C26: `[[T]!]` and list nestings of input fields are translated to a type with null in the wrong place.
2. C03, C04, C16, C23, C35: object types whose selected key sets agree share one declaration, although the
   sub-selections below those keys may differ.  Selections and enum imports are silently lost.
3. C04: `@skip` and `@include` are ignored, so that a missing key is not accepted by the generated type.
4. C05, C06, C13: subscriptions are resolved against the type Query and exported as queries.
5. C05: selecting an abstract type without object types fails with an internal error.
6. C07, C48: of two descriptions of the same property, the one written depends on order (of selections, or
   of hash-map iteration).  Two files that define one fragment name: hash order decides.  Lists of possible
   types in messages appear in hash order.
7. C08: a type condition that names an input object leads to an internal error.
8. C11, C34, C35: problems in imported fragments are suppressed if the file is not itself a source file.
9. C18: one response key can be listed twice (with different types); names joined with `_` can collide.
10. C20: deleting `*/` from a description can create a new `*/`.
11. C27, C32: recursive input objects and import cycles exhaust the stack.
12. C33: an import line without a closing quote panics.
13. C36, C42, C52: with two or more threads the pool can stop before all directories are processed, silently
    and with exit code 0; zero threads compile nothing and exit with 0.
14. C41: with two or more threads a panic hangs the process.
15. C45: the plural of the warning count follows the error count.
16. C46: the custom scalar prefix of the configuration file is ignored unless the file also mentions
    `useCustomScalars`.
17. C51: a module name with a dot is used as a file name without `.ts`; a module starting with the prefix and
    `/` is written outside of the root directory.
18. C53, C54, C56: operations and enums may be named like reserved words or predefined types of TypeScript (`any`,
    `string`), and descriptions may contain `**//`: the text written is no module, or says something else.  The
    exit code is 0.
19. C55: an operation named like an enum it selects binds that name twice.
20. C58: the configuration file's key for `--schema-path` is `schemaFile`, not the camelcased `schemaPath`; unknown
    keys are ignored without a message.
21. C59: the introspection query of qlc-download-schema does not ask for `isDeprecated`, and asks for seven levels of
    `ofType` only.
22. C60: qlc-download-schema empties the target before the request and deletes it if the request fails.
23. C61: `DataOf` and `VariablesOf` try `QueryDocumentNode` first, which every document node extends.
24. C64: escape characters in file names, source lines and descriptions reach the terminal as they are, also with
    `--no-color`.
25. C66: if the file of global types cannot be written, the message names the root directory instead of the file; if an
    imported file is no fragment, the message says so about the importing file.
26. C68: a pre-release version that is neither alpha nor beta (`4.3.0-rc.1`) is published as a full release and as the
    latest on npm.
27. C70: in a file with lines ending in carriage return and line feed, every comment (hence every import line) counts as two
    lines, so messages show a wrong line, or `<<QLC unknown line>>`.
28. C70: a tab counts as eight columns, so the caret stands too far right.
29. C70: if an imported file imports an operation, the message names the compiled file with the number and text of a line of
    the imported one.
30. C71: an import line with a space before the `#` is not seen, and it ends the scan for import lines, so later ones are not
    seen either; the user gets "unknown spread fragment name" with the advice to import it.
31. C73: a variable with a default (`$n: Int! = 3`) may be left out of a request, but its property is required; a single item for
    a list and a number for an ID are refused as well.  A request with 1.5 for an Int type-checks and is refused by the server.
32. C74: `a: __typename b: __typename` on an interface allows objects with two different type names; a field selected on an
    interface has the type declared there, so null is allowed where no object type has it.
33. C75: the query of qlc-download-schema passes `includeDeprecated: true` to `fields` and `enumValues` but not to `inputFields`
    and `args`; servers that follow the specification after October 2021 then hide deprecated input fields, and the generated
    input types lack them without a message.
34. C77, C51: a globals module whose name ends in `.graphql` is written to a file of that name (no `.ts` is added when there is an
    extension), which the next run takes for a source: the first run exits with 0 and the second with 1, on the same sources.
35. C79: errors in an imported fragment are not reported where it is spread, but left to the compilation of its own file
    (ir.rs:767-768). A file outside the root directory is never compiled, so a document that spreads a fragment from there compiles
    although the fragment selects a field that does not exist; the field is missing in the types (`C79_outside_refuted`).
36. C85: index.d.ts declares `export default`, but index.js assigns the string to module.exports; compiled to CommonJS
    without esModuleInterop, the default import is undefined.

## 6. Wrong programs

For each entry of `seeded/LOG.jsonl` the model was changed in a scratch copy as a realistic bug would
change the code, and everything was rebuilt.  The entry says which theorems stopped proving.  A theorem
whose claim became false although it still proved was tightened (field `tightened`), or a new property was
added (C51, C52 were found that way).

## 7. Properties

"Model" names the definitions the theorems talk about, "specification" the file the claim is stated with,
"method" the main argument.  Proofs by induction are for all sizes, depths, schedules and step counts.

### C01 List/non-null wrappers are translated faithfully

For a selected field whose schema type is any nesting of LIST and NON_NULL around a named type, the TypeScript type expression written for the property accepts null, arrays and inner values at exactly the levels at which the GraphQL type allows them.

* Model: `mb_actualize`, `mb_listize`, `ftype_of_json`, `prop_type_def`. Specification: `SpecGql`, `SpecTs` (values of a type reference, of a read type expression).
* Method: induction on the nesting; the builder's state is related to the part of the type already read; for inner types with null `builder_any` of `PromiseFacts`
* Result: **partial**. Theorems: `C01_wrappers_partial`, `C01_wide_partial`, `C01_wide_is`, `C01_wrappers_exact`, `C01_wrappers_refuted`. C01_wide_partial holds also for inner types that have null in them, as for scalars written as any. All nestings of any depth except those with a nullable list of non-null lists, which the code always translates wrongly (C01_wrappers_exact, C01_wrappers_refuted).

### C02 Schema loading is total and exact

Loading an introspection result either fails with the documented 'malformed schema' error for the first bad type, or yields a schema in which each type name resolves to the last definition given for it, every object, interface and union offers __typename (and input objects do not), and every declared field is present with its last definition.

* Model: `load_schema`, `type_of_json`, `field_of_json`. Specification: `SpecLoad`.
* Method: induction on the list of types and of fields
* Result: **proved**. Theorems: `C02_error`, `C02_reported`, `C02_loaded`, `C02_typename`. List and non-null wrappers of field types: C01.

### C03 Exact response keys per concrete type

When an operation or fragment compiles, then for every concrete object type the value can have at run time, the property names in the generated type for it are exactly the response keys that GraphQL's CollectFields algorithm yields for that object type, at every depth, provided the imported fragments are themselves error free.

* Model: `compile_file` down to `ts_collection`. Specification: `SpecSel` (collected fields), `SpecMod`, `SpecReg`.
* Method: main chain (section 4); induction on the structure of the collection
* Result: **partial**. Theorems: `C03_partial`, `C03_operation`, `C03_refuted`. At every depth the declaration for an object type lists exactly the selected response keys, for regular documents (object types that share a declaration select the same things); at the root without that guard. Refuted in general: the code shares one declaration between object types whose key sets agree but whose sub-selections differ.

### C04 Generated result type is sound for GraphQL execution

Every response a spec-conforming GraphQL server can return for the compiled operation is accepted by the generated TypeScript result type.

* Model: `compile_file` down to `ts_collection`. Specification: `SpecResp` (responses), `SpecDecl`, `SpecTs`.
* Method: main chain; induction on the derivation that a response is valid
* Result: **partial**. Theorems: `C04_partial`, `C04_refuted_sharing`, `C04_refuted_skip`. Responses are specified from the introspection result by GraphQL's own rules (field collection, covariant implementations, value completion), and every response is accepted by the generated type named after the operation, for regular documents without active @skip/@include, with labels kept apart (as in C18), no nullable list of non-null lists, and no leaf type named like a declaration. Refuted in general by shared declarations and by @skip/@include.

### C05 Valid documents compile without errors

A document all of whose selected fields exist on their parent types, whose leaf fields have no selection set and composite fields have a non-empty one, whose inline fragments have composite type conditions and whose spreads are imported (acyclically), compiles with no error message against a schema whose type references are consistent.

* Model: `compile_definition`, `compile_ir`, `compile_file`. Specification: `SpecSel` (validity).
* Method: main chain; the depth bound is found by induction on validity
* Result: **partial**. Theorems: `C05_partial`, `C05_file`, `C05_subscription_refuted`, `C05_uninhabited_refuted`. Valid documents compile, at the level of documents and of whole files, unless they are subscriptions (resolved against Query) or select an abstract type that has no object type (fails when rendering); both exclusions are shown necessary.

### C06 Every invalid local selection is reported

If the document itself (not a fragment imported from another file) selects an unknown field, gives a selection set to a leaf, omits one from a composite field, spreads a fragment that was not imported, or uses an inline fragment without type condition or with an unknown/leaf type, the file is rejected with an error and nothing is written for it; if it compiles, none of these occur.

* Model: `collect`, `compile_definition`, `compile_file`. Specification: `SpecDiag` (own selections with their static types).
* Method: relation `SelRun` realised by `collect` on every document, then induction on it
* Result: **partial**. Theorems: `C06_reported`, `C06_accepted`, `C06_only`, `C06_file`, `C06_subscription_refuted`. Every invalid selection written in a query, mutation or fragment document is described by an error (also at file level, where nothing is written), and every error is such a complaint. Not true for subscriptions, whose fields the code looks up in Query: refuted by an example.

### C07 Output does not depend on hash-map iteration order

Compiling the same document with the same schema produces byte-identical output no matter in which order the process's randomly seeded hash maps iterate.

* Model: `env_order` at every iteration. Specification: `SpecFile`; equality of outputs.
* Method: traversals are equal as maps for all orders (`TravEq`, `CollectEq`); sorting canonicalises
* Result: **partial**. Theorems: `C07_partial`, `C07_collection`, `C07_messages`, `C07_file`, `C07_refuted`, `C07_messages_refuted`, `C07_refuted_fragments`. For consistent schemas and documents that never ask for fields of differently named types under one key, output and globals are the same for every iteration order at every site; for whole files also if no two reachable files define fragments of one name. For any document and schema at most the order of same-named properties varies, and messages agree up to the order of listed alternatives. Refuted without the conditions.

### C08 Internal program errors are unreachable with a consistent schema

With a schema whose field type references agree with the kinds of the referenced types, compiling any document never reports the internal errors 'attempting merge of complex type', 'traversing a terminal', 'input object type' traversal, or 'failed lookup of type' for a field's type.

* Model: `compile_definition`. Specification: `SpecLoad` (consistent schemas).
* Method: invariant on traversals of arbitrary documents (`ShapeFacts`)
* Result: **partial**. Theorems: `C08`, `C08_none`, `C08_refuted`, `C08_consistency_needed`. The only internal errors are 'missing type' for a type condition or root type that does not exist and 'unexpected complex traversal' for a type condition that names an input object. The latter contradicts the claim: refuted by an example; proved otherwise.

### C09 Diagnostics point into the compiled file

Every positioned error or warning reported for a file carries the position of a selection, definition or variable of that same file, never of an imported fragment.

* Model: `collect`, `compile_definition`. Specification: `SpecDiag`.
* Method: induction on `SelRun`
* Result: **proved**. Theorems: `C09_errors`, `C09_warnings`. All positioned errors and warnings carry the position of the definition, of one of its variables or of one of its own selections.

### C10 Deprecation warnings are exact

With deprecation warnings enabled and a successful compile, one warning is reported for each selection in the file itself of a field marked deprecated (carrying its position, name and parent type; in document order, except that the uses inside a field come before the field's own), none for selections inside imported fragments, and none at all when the option is off.

* Model: `insert_field`, `compile_definition`. Specification: `SpecDiag`.
* Method: induction on `SelRun`; exact list
* Result: **proved**. Theorems: `C10`, `C10_off`. Exact list of deprecation warnings for queries, mutations and fragments; subscriptions are resolved against Query (see C06).

### C11 Over-narrowing warnings are exact

A fragment spread or inline fragment written in the file is warned about exactly when no concrete type possible at that point can satisfy its type condition; such a spread contributes nothing to the output type.

* Model: `clone_for_type_spread`, `spread_into`. Specification: `SpecDiag`, `SpecSel`.
* Method: induction on `SelRun`; exact list
* Result: **partial**. Theorems: `C11`, `C11_kinds`, `C11_contributes_nothing`, `C11_refuted`. Exact list of over-narrowing warnings; a vacuous spread leaves the collected state unchanged. A spread of an imported fragment whose type condition is not composite is dropped without a warning: refuted by an example.

### C12 Field collection terminates

Compiling a document terminates whenever fragment spreads are acyclic; a fragment that (transitively) spreads itself makes the compiler recurse without bound.

* Model: `collect` (depth bound). Specification: well-foundedness of nesting (`SpecDiag`).
* Method: well-founded induction in one direction, descending chain in the other
* Result: **proved**. Theorems: `C12_exact`, `C12_acyclic`, `C12_cycle`, `C12_self_spread`. Terminates iff the nesting of selection sets through fields, inline fragments and spreads is well founded; acyclic spreads imply it; a cycle exhausts every depth bound.

### C13 Operation kind selects the document-node type

The default export is annotated QueryDocumentNode for queries, MutationDocumentNode for mutations, SubscriptionDocumentNode for subscriptions and FragmentDocumentNode (one type argument) for fragments, with the operation's own name (or the kind's default name) and its Variables type, or never when it has no variables.

* Model: `docnode_name`, `compile_ir`, `op_type_name`. Specification: `SpecFile`.
* Method: case analysis through the module tree
* Result: **partial**. Theorems: `C13_partial`, `C13_subscription`, `C13_refuted`. Holds for queries, mutations and fragments; subscriptions are exported as QueryDocumentNode, proved for all of them.

### C14 Variables are typed faithfully

For every operation whose variables are named types or lists of named types, the Variables type has exactly one property per variable, sorted by name, optional exactly when the GraphQL type is nullable, whose type expression denotes the variable's GraphQL type; lists of lists are rejected with an error, as are unknown types.

* Model: `try_build_variable_ir`, `variable_line`, `variables_definition`. Specification: `SpecVar`, `SpecGql`, `SpecTs`.
* Method: induction on the variables
* Result: **proved**. Theorems: `C14_accepted`, `C14_rejected`, `C14_written`. Acceptance is exact, the first offending variable is reported, and the written type accepts exactly GraphQL's values.

### C15 Arguments and directives do not affect the output

The generated output and diagnostics are a function of the document without its field arguments and directives.

* Model: `compile_file`. Specification: relation between documents that differ in arguments and directives only.
* Method: simulation by induction on the depth bound
* Result: **proved**. Theorems: `C15_documents`, `C15_files`. Field arguments, directives and variable default values of the document and of every imported fragment can be changed at will: same diagnostics, same written file.

### C16 Abstract types: every possible type is covered exactly once

For a value of interface or union type the generated union contains, for each possible concrete type, exactly one member that stands for it, with that type's own properties; types are grouped into one shared member only if their generated properties agree.

* Model: `ts_collection`, `smoosh`. Specification: `SpecDecl`, `SpecReg`.
* Method: main chain; exactly one alternative by distinctness of type names
* Result: **partial**. Theorems: `C16_partial`, `C16_refuted`. Every possible object type has exactly one alternative, named as documented, for regular documents. Refuted in general by the same sharing of declarations.

### C17 Generated files are closed

Every type name referenced in a generated file is a TypeScript builtin, a custom scalar name, a type declared in that same file, or a name listed in the globals import of that file; every name in that import is used.

* Model: `compile_ir`. Specification: `SpecFile` (names used, declared, imported).
* Method: relational description of the renderer (`PlanFacts`), induction
* Result: **proved**. Theorems: `C17_closed`. Every name used by a generated module is declared in it, imported from the globals module, built in, or a custom scalar's alias.

### C18 No duplicate declarations

A generated file declares each type name at most once, and each object type lists each property at most once.

* Model: `compile_ir`, `ts_collection`. Specification: `SpecFile`.
* Method: name mangling is injective on names without `_`; induction on paths
* Result: **partial**. Theorems: `C18_partial`, `C18_properties`, `C18_labels`, `C18_refuted`, `C18_refuted_property`. No type name is declared twice and no property listed twice, for documents that never ask for fields of differently named types under one key, and whose labels are kept apart (labels_apart): what can follow one object type or one key of a composite field in the names declared below it never makes it equal to a name below another one of the same place. C18_labels gives a condition on the labels alone: no label is another one of the same place followed by an underscore and more. Labels without underscores meet it. Refuted without these conditions: the names joined with '_' can run together, and two fields of different types can get the same key.

### C19 Output is canonical: sorted properties

In every generated object type the properties appear sorted by name, union members appear sorted by concrete type name, and the literal __typename unions are sorted.

* Model: `ts_collection`, `compile_imports`. Specification: `SpecFile` (sortedness by byte order).
* Method: sorting lemma and `PlanFacts`
* Result: **proved**. Theorems: `C19_canonical`. Members, union alternatives and the globals import of every generated module are in canonical sorted order, globals without repetition.

### C20 Schema documentation cannot break out of comments

Whatever text the schema's descriptions contain, the emitted documentation comment ends only at its own terminator, so a description can never inject code into the generated file.

* Model: `compile_documentation`, `replace`. Specification: `SpecDoc` (how a block comment is read).
* Method: induction on the text
* Result: **partial**. Theorems: `C20_contained_partial`, `C20_no_description`, `C20_exact`, `C20_refuted`. Holds for descriptions without a comment terminator; removing terminators can create a new one.

### C21 Readonly option applies to every property

Every property of every generated result type carries readonly when the option is enabled (default) and none does when it is disabled; nothing else in the output changes.

* Model: `single_prop_type_def`, `prop_line`. Specification: `SpecFile`.
* Method: `PlanFacts`, induction on declarations
* Result: **proved**. Theorems: `C21_readonly`. With the option every property of the result types is readonly; without it none is; no property of the variables type ever is, and nothing else changes.

### C22 Scalar mapping

Built-in scalars map to boolean/string/number, custom scalars to any, their own name, or the prefixed name according to the configuration, identically in result types, variables and input objects.

* Model: `scalar_ts`, `compile_scalar`, `variable_type_name`. Specification: table in `PropC22`.
* Method: case analysis
* Result: **proved**. Theorems: `C22_result`, `C22_input`, `C22_variable`, `C22_variable_accepted`.

### C23 Globals import is exact

The globals import of a generated file lists exactly the enum types of its selected fields and the non-scalar custom types of its variables, each once, sorted; the same set is what the file contributes to the globals file.

* Model: `prepare`, `compile_imports`. Specification: `SpecSel`, `SpecVar`.
* Method: main chain; both inclusions
* Result: **partial**. Theorems: `C23_partial`, `C23_only`, `C23_refuted`. Nothing but selected enums and variable types is imported, sorted and without repetition, unconditionally; in regular documents the import is exact. Refuted in general: an enum selected only for an object type that shares another's declaration is not imported.

### C24 Globals file is closed and minimal

When the globals file is produced, it defines exactly the requested types and all enums and input objects transitively reachable from them through input object fields, each exactly once and sorted by name, so every type name referenced in it is defined in it.

* Model: `compile_globals`, `add_sub_inputs`. Specification: `SpecGlobal` (reachability).
* Method: induction on the depth bound; inclusion in both directions
* Result: **proved**. Theorems: `C24_contents`, `C24_produced`, `C24_closed`, `C24_order`, `C24_loaded`. For schemas whose input object fields refer to input types; termination is C27.

### C25 Enum definitions are exact

The definition of an enum in the globals file has exactly one member NAME = "NAME" for each value of the enum in the schema, sorted.

* Model: `enum_def`. Specification: `SpecGlobal`.
* Method: induction on the values
* Result: **proved**. Theorems: `C25_enum`, `C25_values`, `C25_present`.

### C26 Input object fields are typed faithfully

In the globals file each input object lists every one of its fields exactly once, sorted, optional exactly when nullable, with a type expression denoting the field's GraphQL type.

* Model: `input_def`, `input_field_type`. Specification: `SpecGlobal`, `SpecGql`, `SpecTs`.
* Method: induction on modifiers
* Result: **partial**. Theorems: `C26_field_partial`, `C26_exact`, `C26_listing`, `C26_refuted`. Listing as stated; types are faithful for at most one list level and always wrong beyond.

### C27 Globals computation terminates

Producing the globals file terminates for every schema, including ones with recursive input objects.

* Model: `add_sub_inputs` (depth bound). Specification: well-foundedness of input object references.
* Method: well-founded induction; descending chain
* Result: **partial**. Theorems: `C27_terminates_partial`, `C27_exact`, `C27_ranked`, `C27_refuted`. Terminates exactly when no infinite chain of input objects starts at a requested type; a self-referential input object diverges.

### C28 Output paths are distinct and never rescanned

Each X.graphql file is compiled to X.graphql.d.ts next to it; two different source files never share an output path, and no output file is ever picked up as a source.

* Model: `scan_entries`, `with_extension`, `path_join`. Specification: `SpecPath`, `SpecTree`.
* Method: injectivity lemmas on paths
* Result: **proved**. Theorems: `C28_sources`, `C28_outputs`. For directory listings with proper entry names without duplicates.

### C29 A file's output is written only on success, and nothing else is touched

Compiling one file writes at most its own output path, writes it only if the document and its types compiled, and leaves every other file unchanged; when it reports a compile failure, no file is changed.

* Model: `compile_file`. Specification: `SpecFs`.
* Method: case analysis by stages (`GraphqlFacts`)
* Result: **proved**. Theorems: `C29_writes`, `C29_no_outcome`. The only exception is an operating system failure in the middle of the write of a compiled document, stated in C29_writes.

### C30 Import resolution

An #import path is resolved by removing the configured prefix and joining to the root directory if it has that prefix, else relative to the importing file's directory if it starts with '.', else relative to the root directory.

* Model: `import_target`. Specification: `SpecImport`.
* Method: characterisation of `strip_prefix`, `path_join`
* Result: **proved**. Theorems: `C30_resolution`, `C30_once`, `C30_used`, `C30_texts`.

### C31 Imports are the transitive closure of the leading import lines

The fragments available to a document are those defined by the files reachable through #import lines, where only the import lines before the first non-comment, non-blank line count; a missing file is reported as an error at its import line.

* Model: `imports`, `add_imports`, `parse_foreign`. Specification: `SpecImport` (reachability).
* Method: work-list invariant
* Result: **proved**. Theorems: `C31_fragments`, `C31_missing`, `C31_defined`. When two reachable files define the same fragment name, one of them is available (which one depends on the hash order).

### C32 Import processing terminates

Processing imports terminates for every file system, including ones with import cycles.

* Model: `add_imports` (depth bound). Specification: `SpecImport`.
* Method: well-founded induction; descending chain
* Result: **partial**. Theorems: `C32_terminates_partial`, `C32_ranked`, `C32_exact`, `C32_refuted`. Terminates exactly for files from which no infinite import chain starts; a file importing itself diverges.

### C33 No document makes the compiler panic

For every content of the source and imported files the compiler reports errors as messages and never panics.

* Model: `import_start`, `slice`. Specification: `SpecImport`.
* Method: exact condition by induction on reachability
* Result: **partial**. Theorems: `C33_no_panic_partial`, `C33_exact`, `C33_refuted`. Panics exactly when a leading import line of a reachable file lacks its closing quote.

### C34 Bad imports are reported

Importing a file that cannot be read, or that is not a fragment, yields an error message attributed to the importing line; the overall run then fails.

* Model: `add_imports`, `foreign_step`. Specification: `SpecImport`.
* Method: case analysis on `ImportProps` stages
* Result: **partial**. Theorems: `C34_unreadable`, `C34_operation_partial`, `C34_run`, `C34_refuted`, `C34_refuted_unparseable`. Unreadable imports: as stated. Imported operations: reported, but blamed on the compiled file even when another file imports them. Unparseable imports are not reported.

### C35 A successful run never silently drops selections

If qlc exits with code 0, then no selection of a compiled document - including those reached through imported fragments - was dropped from its generated type.

* Model: `qlc`. Specification: `SpecSel`, `SpecTree`.
* Method: composition of C44, C06 and C03
* Result: **partial**. Theorems: `C35_run`, `C35_partial`, `C35_refuted`, `C35_refuted_sharing`. For trees in which every imported file is itself a source file, exit code 0 means that every document and every imported fragment is valid, and that every selection of a regular document is in its output, at every depth. Refuted without these conditions: an invalid fragment in a file that is not a source loses whole selections silently, and so does sharing of declarations.

### C36 Every file is compiled under every schedule

When all workers have stopped, every .graphql file reachable from the root directory has been compiled, for every number of worker threads and every interleaving.

* Model: `Pool.step` with `run_work`. Specification: `SpecTree`, `SpecPool`.
* Method: accounting invariant over steps; explicit schedules for the converse
* Result: **partial**. Theorems: `C36_complete_partial`, `C36_exact`, `C36_leftover`, `C36_refuted`. Holds for trees without nested contents and every thread count >= 1; for two or more threads that condition is exact (C36_exact) and the loss is silent (C36_refuted). One thread: C38.

### C37 No file is compiled twice

Under every schedule each directory entry is processed at most once and nothing outside the tree is processed.

* Model: `Pool.step`. Specification: `SpecPool` (positions).
* Method: invariant: each position is in one place
* Result: **proved**. Theorems: `C37_at_most_once`. All trees, thread counts and schedules.

### C38 Single-threaded runs are complete and terminate

With one worker thread, the pool terminates on every finite directory tree having processed every entry exactly once.

* Model: `Pool.step`. Specification: `SpecPool`.
* Method: invariant for one worker; measure for termination
* Result: **proved**. Theorems: `C38_complete`, `C38_terminates`. All trees and schedules; termination for finite trees whose files do not panic.

### C39 Aggregation loses and duplicates nothing

Under every schedule, the messages handed to the exit report are exactly those produced by the processed entries, each as often as it was produced, and the global types are exactly those the processed entries use, each once.

* Model: `aggregate`. Specification: multisets of messages and sets of names.
* Method: invariant on logs
* Result: **proved**. Theorems: `C39_aggregation`.

### C40 The pool can always finish

On a finite tree on which no item panics, from every state the pool can reach some continuation stops all workers: there is no deadlock.

* Model: `Pool.step`. Specification: `SpecPool`.
* Method: strategy that ends every reachable state
* Result: **proved**. Theorems: `C40_no_deadlock`. For finite trees on which no item panics; what happens after a panic is C41.

### C41 A panicking worker does not hang the process

If a worker panics while processing a file, the process still terminates.

* Model: `Pool.step`, `process_end`. Specification: `SpecPool`.
* Method: invariant: counters can no longer reach the number of threads
* Result: **partial**. Theorems: `C41_single_thread_partial`, `C41_stuck`, `C41_refuted`. One thread: the process ends with a panic. Two or more threads: after a panic no other worker can ever stop (C41_stuck), so the process hangs (C41_refuted).

### C42 Any thread count works

For every configured number of threads the files under the root directory are compiled.

* Model: `qlc`. Specification: `SpecTree`.
* Method: from C36; direct computation for zero threads
* Result: **partial**. Theorems: `C42_positive_partial`, `C42_zero`, `C42_refuted`. Positive counts: with the restrictions of C36. Zero threads: exit code 0 with nothing compiled.

### C43 Result files do not depend on the schedule

If no import refers to an output file, the final contents of all files are the same for every schedule that processes all files.

* Model: `Pool.step`, `run_work`. Specification: `SpecFs`.
* Method: effects of different files commute; induction on runs
* Result: **proved**. Theorems: `C43_outputs`, `C43_workers`, `C43_process`, `C43_import_of_output`. The guard is also shown to be needed.  Work::run is one atomic step in the model.

### C44 Exit code reflects errors

The process exits with 0 if no error-level message was produced and 1 otherwise; warnings alone never fail the run.

* Model: `exit_report`, `qlc`. Specification: `SpecCli`.
* Method: case analysis
* Result: **proved**. Theorems: `C44_exit_code`, `C44_success`.

### C45 Exit report is complete and well counted

Standard output contains every message once, in order, followed by a summary with the number of errors (if any) and the number of warnings (if any), with plural form exactly when the count exceeds one.

* Model: `exit_report`. Specification: `SpecCli`.
* Method: computation on lists
* Result: **partial**. Theorems: `C45_report_partial`, `C45_report_exact`, `C45_report_refuted`. Everything except the plural of the warning count, which follows the error count (exact condition in C45_report_partial).

### C46 Configuration precedence

A command line value overrides the configuration file, which overrides the default; boolean options are enabled if either enables them; a relative schema path in the configuration file is resolved against that file's directory; a custom scalar prefix takes effect exactly when custom scalars are enabled and a prefix is configured.

* Model: `merge_config`, `load_config`. Specification: `SpecCli`.
* Method: case analysis
* Result: **partial**. Theorems: `C46_precedence`, `C46_options`, `C46_schema_path`, `C46_beside`, `C46_prefix_partial`, `C46_prefix_exact`, `C46_prefix_refuted`. Everything except that the prefix of the configuration file is ignored when that file does not mention useCustomScalars.

### C47 Error locations show the right line

The source line displayed with a positioned message is the line of the file at the reported line number, and the caret is under the reported column.

* Model: `loc_position`, `fmt_line`, `lines`. Specification: `SpecCli` (lines of a text).
* Method: induction on the text
* Result: **proved**. Theorems: `C47_location`, `C47_line_found`.

### C48 Splitting and repeating selections is harmless

Repeating a selection, reordering selections, or wrapping selections into an inline fragment on the enclosing type does not change the generated output, for documents without conflicting aliases.

* Model: `compile_definition`, `compile_ir`. Specification: `Rewrite` (rewriting relation).
* Method: rewriting preserves collected fields; documents collecting the same compile alike
* Result: **partial**. Theorems: `C48_partial`, `C48_collected`, `C48_refuted`. Repeating, reordering, splitting, wrapping, inlining a fragment, changing positions, arguments and directives: anywhere, any number of times, in either direction, gives the identical module, for documents in which the fields under one response key agree in type, documentation and deprecation. More generally any two documents that collect the same fields for every object type compile to the same module. Refuted without the condition: reordering changes which of two different descriptions is written.

### C49 End to end (one thread)

If a single-threaded run exits with code 0 and no source, import or globals file is an output file, then every .graphql file under the root has an output file holding exactly the compilation of that document, the globals file (if any global type is used) holds exactly the closure of the used global types, and no other file changed.

* Model: `qlc`. Specification: `SpecTree`, `SpecFs`.
* Method: composition of C38, C29, C43, C24
* Result: **proved**. Theorems: `C49_end_to_end`, `C49_flat`. For schemas whose input objects are consistent; also for any number of threads on trees without subdirectories.

### C50 Installer never unpacks an unverified archive

The NPM post-install script unpacks a downloaded archive only if its SHA-256 equals the checksum recorded in package.json for the target, and otherwise deletes it and exits with a failure.

* Model: `Npm.install`. Specification: statements over traces of actions.
* Method: case analysis, induction on redirects
* Result: **proved**. Theorems: `C50_unpacks_verified`, `C50_rejects`, `C50_success`, `C50_exit`, `C50_installs`.

### C51 Globals file is where generated files import it from

The globals module, with the configured import prefix standing for the root directory, is the file written: ROOT/MODULE.ts, inside the root directory.

* Model: `globals_path`. Specification: `SpecPath`.
* Method: path lemmas
* Result: **partial**. Theorems: `C51_globals_path_partial`, `C51_dotted`, `C51_absolute`, `C51_refuted`. Exact for relative modules whose last component has no extension; a dotted module name is used as the file name unchanged, and a remainder starting with / leaves the root directory (prefix @ with module @/globals writes /globals.ts): refuted by examples.

### C52 Unreadable directories are reported

A directory below the root that cannot be listed, or one of whose entries cannot be read, yields an error naming it, and the process then does not exit with 0.

* Model: `run_work`, `qlc`. Specification: `SpecTree`.
* Method: composition of C36/C38 and C39
* Result: **partial**. Theorems: `C52_reported`, `C52_success`, `C52_refuted`. Every processed directory that cannot be read is reported, under every schedule; with one thread or no subdirectories exit code 0 implies a readable tree. With more threads a lost directory is lost silently (see C36): refuted by a schedule.

### C53 Generated modules read back

The text of a generated module, read by a reader for TypeScript that knows nothing of the generator, is one sequence of statements: the import of the node type, the import of the global types if there are any, the type declarations (among them one named after the operation), the constant graphqlDocument with the node type and its type arguments, and the default export. No other reading exists.

* Model: `compile_definition`, `compile_ir` to the text. Specification: `SpecRead` (reader for modules), `SpecName` (usable names).
* Method: the text of a module tree has that tree as its only reading (`ReadFacts`); names come from document and introspection result
* Result: **partial**. Theorems: `C53_partial`, `C53_refuted`, `C53_injected`. For GraphQL names that are not reserved or predefined in TypeScript and descriptions without comment delimiters. Refuted otherwise: a query named any compiles to a text that is no module, and a description containing **//...//** adds a property to the declared type.

### C54 Globals file reads back

The text of the globals file reads as exactly one statement per needed global type, sorted by name: an enum with the values, or an object type with the fields and types, that the introspection result gives for it.

* Model: `compile_globals`, `load_schema`. Specification: `SpecStmt`, `SpecGlobal`, `SpecName`.
* Method: as C53; composed with C24-C26 and C02
* Result: **partial**. Theorems: `C54_partial`, `C54_injected`, `C54_refuted`. Under the same condition on the introspection result, including the names of enum values and input fields. Refuted otherwise: an enum named string gives an unreadable file, and a description can add a statement.

### C55 A generated module binds no name twice

No name is introduced twice in a generated module by its imports, type declarations and constants together.

* Model: `compile_ir`. Specification: `SpecMod`, `SpecSel`.
* Method: from C18, C23 and C53; declared names start with the operation's name
* Result: **partial**. Theorems: `C55_partial`, `C55_refuted`. For documents as in C18 whose imported types are not named graphqlDocument, like the node type, or like a declaration of the operation. Refuted otherwise: a query named Mood that selects the enum Mood binds Mood twice.

### C56 Generated files fit together

After a run with exit code 0 every output reads as a module; what it imports from the node module is exported by it and has the right number of type parameters; what it imports from the globals module is declared exactly once in the globals file of the run; every other name it uses is declared in it, predefined, or a custom scalar.

* Model: `qlc`, `Package`. Specification: `SpecTree`, `SpecMod`, `SpecStmt`.
* Method: composition of C49, C53, C54, C17 and C13
* Result: **partial**. Theorems: `C56_partial`, `C56_default_node`, `C56_refuted`. Under the conditions of C49 and C53. Unless configured otherwise the node module is a path exported by the package. Refuted otherwise: a run over a query named any exits with 0 and writes a text that is no module.

### C57 The introspection result is read for what it says

The decoded introspection result is exactly the one the JSON value says: order of entries and unknown keys do not matter at any depth, null and absence mean none, a missing, doubled or ill-typed entry is rejected; a rejected schema file gives exit code 1 and changes no file.

* Model: `d_schema`, `schema_from`, `qlc`. Specification: `SpecJson` (what a JSON value says).
* Method: both directions by induction on JSON values; invariance by induction on the relation of similar values
* Result: **proved**. Theorems: `C57_exact`, `C57_standard`, `C57_same`, `C57_rejected`.

### C58 Options can be given in the configuration file, camelcased

A run with options in the configuration file under their camelcased names is the same as a run with those options on the command line; a value of the wrong type is an error with exit code 1 and no effect.

* Model: `d_config`, `load_config`, `merge_config`, `qlc`. Specification: `SpecJson`, option names in `PropC58`.
* Method: decoding lemma, case analysis on the options
* Result: **partial**. Theorems: `C58_exact`, `C58_rejected`, `C58_file_or_args`, `C58_camelcased`, `C58_unknown_keys`, `C58_camelcased_refuted`. For every option except --schema-path, whose key is schemaFile (C58_file_or_args has it under that key). Refuted for --schema-path: the key schemaPath, like any unknown key, is ignored without a message.

### C59 A downloaded schema is as good as a complete one

A run of qlc with the schema downloaded by qlc-download-schema is the same as a run with a complete introspection result of the same server.

* Model: `answer`, `introspection_query`, `schema_from`, `qlc`. Specification: `SpecDownload`, `SpecJson`.
* Method: execution of the query computed by induction on levels and lists; loading is insensitive to what is missing
* Result: **partial**. Theorems: `C59_answer`, `C59_whole`, `C59_accepted`, `C59_partial`, `C59_deep`, `C59_never_deprecated`, `C59_flags`, `C59_hidden`, `C59_refuted`, `C59_refuted_deep`. C59_answer says exactly what qlc reads of what is downloaded, C59_whole what is downloaded; servers that hide deprecated input fields are included. Equal runs for schemas without deprecated fields and with at most seven wrappers around a type. Refuted otherwise: deprecations are never asked for, so there are no warnings and no @deprecated; a type with more than seven list and non-null wrappers makes every run fail.

### C60 A download succeeds or leaves the files as they were

qlc-download-schema exits with 0 exactly if the server answered the introspection query with status 200, and then the target file holds the answer; otherwise it exits with 1 and leaves the previous file; no other file is ever changed.

* Model: `download_schema`. Specification: `PropC60`.
* Method: case analysis
* Result: **partial**. Theorems: `C60_success`, `C60_contents`, `C60_failure`, `C60_refuted`. The first half and the last clause hold. Refuted: a failed download empties and deletes the previous file.

### C61 DataOf and VariablesOf extract the types of a document node

DataOf and VariablesOf of a typed document node of any kind give its data and variables types.

* Model: `Nodes`. Specification: equations in `PropC61`.
* Method: case analysis
* Result: **partial**. Theorems: `C61_partial`, `C61_exact`, `C61_refuted`. For queries. Refuted for mutations, subscriptions and fragments: their nodes also extend QueryDocumentNode, as its only property is optional, so that the result is BasicObject.

### C62 Interleaved file operations end like files processed one at a time

However the single reads and writes of concurrent workers interleave, including reads in several steps and writes through truncated and partial contents, the process ends as in some run in which each worker reads, compiles and writes each file without interruption: same exit code, same output, same files; provided there is one worker, or no source or import of the run is one of its outputs.

* Model: `Fine` (programs of single operations, `fstep`, `fine_qlc`). Specification: `grain_ok`, `same_end` in `PropC62`; the runs of `Pool` and `Main`.
* Method: simulation: an item takes effect in the coarse pool at its last operation; until then its remaining program, run alone, gives the result of the whole item; completeness by replaying recorded results in the coarse pool
* Result: **proved**. Theorems: `C62_pool`, `C62_process`, `C62_one_worker`, `C62_covers`, `C62_once`, `C62_outputs`, `C62_condition_needed`. C62_pool and C62_process for any number of workers if no file read is an output; C62_one_worker without that condition; C62_covers is the converse. C62_once and C62_outputs carry the completeness and determinism results over to interleaved operations. C62_condition_needed: without the condition an import of an output can be read half written.

### C63 Suggestions are the names at most two typing mistakes away

The help text of an unknown field or fragment suggests exactly those existing names that can be reached from the given name by at most two changes, each adding, removing or replacing one byte or exchanging two neighbours; without such a name there is no suggestion. The distance computed is the least number of changes.

* Model: `Strsim` (table, loops, hash map), `similar_help`, `compile_file`. Specification: `SpecEdit` (single changes of a word).
* Method: alignments with crossing pairs cost at most one more after a single change (`EditFacts`); loop invariants of the table (`StrsimFacts`); composed with C06
* Result: **proved**. Theorems: `C63_distance`, `C63_suggestions`, `C63_field`, `C63_fragment`, `C63_symmetric`. Distance counted in bytes. C63_field and C63_fragment at the level of files, with strsim's algorithm as the edit distance.

### C64 Colours change nothing but colours

With --no-color, and wherever colours are off, the output is byte by byte the plain report. With colours a terminal shows the same characters and the exit code is the same; severity and mark are yellow for warnings and red for errors, the text is bold, the frame blue; after the report the terminal writes in its normal colour.

* Model: `Colour`, `exit_report`, `qlc`. Specification: `SpecTerm` (a terminal), `SpecLook` (pieces with pens).
* Method: painting is invisible to the terminal's state machine up to pens (`ScreenFacts`, `LookFacts`)
* Result: **partial**. Theorems: `C64_when`, `C64_off`, `C64_no_color`, `C64_same_text`, `C64_look`, `C64_report`, `C64_process`, `C64_leak_refuted`. All clauses hold; that no colour stays on afterwards holds if the texts printed contain no escape character. Refuted otherwise: file names and source lines are printed unfiltered.

### C65 A command line is accepted exactly if it spells consistent settings

qlc accepts a command line exactly if it is a sequence, in any order, of at most one directory and the documented options, each at most once, options with values written with an equals sign or followed by a word that is no option, paths not empty, the number of threads a decimal number of 64 bits, and the prefix of custom scalars only together with their use; two dashes may precede the directory. It then means exactly these settings. Help and version win over everything to their right. A wrong command line ends the process with code 2, and neither it nor help or version touches a file. Every consistent combination of settings can be written.

* Model: `Args` (words, pending values, found arguments), `qlc_command`. Specification: `SpecArgs` (items and their spellings, numerals).
* Method: each spelled item is one step of the parser; conversely strong induction on the words left
* Result: **proved**. Theorems: `C65_exact`, `C65_help`, `C65_version`, `C65_order`, `C65_process`, `C65_expressible`. For arguments in UTF-8; after clap's published source. C65_exact in both directions.

### C66 A message says what is wrong, with which names, in which file

Every message the compiler can print has the severity, headline and advice a catalogue gives for the problem it stands for. The names involved, and nothing else, stand between backquotes, and no two different problems have the same headline. Every message of a run's report tells one of the problems of the catalogue, and that problem is there: the file said to be unreadable or unwritable is so, with the error quoted.

* Model: the message constructors of `Cli`, `Graphql`, `Main`; `compile_file`, `qlc`. Specification: `SpecMsg` (catalogue of problems with severity, sentence and advice; causes).
* Method: splitting at backquotes inverts the weaving of words and names; pairs of problems by cases; the report through the pool's log
* Result: **partial**. Theorems: `C66_ir`, `C66_warning`, `C66_others`, `C66_document`, `C66_distinct`, `C66_names`, `C66_file_partial`, `C66_run_partial`, `C66_refuted_globals`, `C66_refuted_import`. Two messages name the wrong file: a failure to write the file of global types, and the import of an operation. Distinctness for names without backquotes.

### C67 The text of a JSON file is read for what it says

The schema file and the configuration file are read if and only if their text is JSON by the grammar of RFC 8259 and the value says a schema (with types of fields nested at most 120 deep) or a configuration, and then as exactly that: escapes, surrogate pairs and white space included. Strings that are not UTF-8 or have half a surrogate pair are an error, unless they are within something that is ignored. Every JSON value can be written, no text holds two. Any other text is reported, with exit code 1 and nothing written.

* Model: `Json` (a transducer of characters, a parser with a stack, escapes, UTF-8), `Decode`, `qlc`. Specification: `SpecJtext` (grammar of RFC 8259, Unicode encodings, what bodies of strings spell), `SpecJson`.
* Method: parser: tokens consumed so far as an invariant; transducer: soundness for all states by induction on the text, completeness by mutual induction on the grammar; arithmetic on code points; composed with C57 and C58
* Result: **proved**. Theorems: `C67_syntax`, `C67_strings`, `C67_utf8`, `C67_value`, `C67_one_value`, `C67_blanks`, `C67_every`, `C67_schema`, `C67_schema_rejected`, `C67_config`, `C67_config_rejected`, `C67_deep_refuted`. After serde_json's published source. C67_deep_refuted shows the limit on nesting that C67_schema mentions: a text that says a schema and is rejected.

### C68 A release is what its installer expects

Whatever the order in which the archives are listed, and whether or not the file of checksums was listed with them, a release has one archive per supported machine under the name and tag for which the installer of the published package asks; the package records exactly its version and the checksums of these archives. Hence the installer of the published package succeeds on every supported machine with the archive GitHub serves, unpacks exactly the build for that machine, and refuses anything with another hash. Pre-release versions are published as pre-releases on GitHub and under a tag other than latest on npm.

* Model: `Release` (shell scripts: sed, grep, listing), `Npm`, `Json`. Specification: inside `PropC68`: characters of versions and hashes, members of JSON objects, machines, a server of release files.
* Method: replacement of placeholders piece by piece; lines that grep matches; the filled template parsed by the model of C67, composed with C50
* Result: **partial**. Theorems: `C68_release`, `C68_installs`, `C68_refuses`, `C68_platforms`, `C68_channels`, `C68_final`, `C68_prerelease_refuted`. Everything but the last clause is proved. Pre-release versions other than alpha and beta become full releases (C68_prerelease_refuted). Versions with a plus sign are not covered (npm drops what follows it).

### C69 A source file is read for the document its text says

A text is read as a document exactly if it is a sequence of ignored text and tokens, with at most 50 brackets open at a time, whose tokens form this document in the grammar of GraphQL (executable definitions), each part with the position where its tokens stand; so a text says at most one document. Spacing, line breaks, commas and comments do not matter: texts with the same tokens are read as the same document up to positions. All names in it are names of GraphQL; hence the guarantees of C56 hold for texts without an assumption on what the parser produces.

* Model: `Gql` (tokenizer and parser of graphql-parser 0.4.0), `Graphql`. Specification: `SpecGtext`: ignored text, tokens as they may be written, grammar as relations between tokens and parts, positions.
* Method: recursive descent sound and complete for the grammar by induction on fuel, with what may follow each part; tokenizer against the relations by induction on the text; mutual induction for layout and names
* Result: **proved**. Theorems: `C69_text`, `C69_one`, `C69_layout`, `C69_named`, `C69_fit`, `C69_values`. About the model of graphql-parser 0.4.0 in Gql.v, written after that crate, which is not part of the repository. Which number texts and string escapes are accepted are parameters. C69_fit is C56_partial for runs with this reader, without its assumption on parsed names. C69_values: the tokens of any part of a text, such as the value of an argument, are what its written form reads back to.

### C70 Messages point at the place they are about

Every position that the reader attaches to a part of a document is where that part stands in the text: a field at its alias or name, a spread at the name of the fragment, an inline fragment at the word on (or at its directive or brace), a variable at its dollar sign, a definition at its keyword or brace. Hence every message of the compilation of a file that shows a line shows the line with the given number of the file it names, and its column is that of a part of the document or of the quote of an import line. (False of the code for comments that end in carriage return and line feed, for tabs, and for imported operations.)

* Model: `Gql`, `Graphql`, `Cli`. Specification: `SpecGpos`: where a word stands in a text (lines and characters before it), the word of each part of a document, when a shown location points at a word.
* Method: positions of tokens against the text before them by induction on the tokens; each part has a token at its position by mutual induction on the grammar; lines of C47; for texts with tabs and carriage returns (`GposMore`) the counted position agrees with the true one in its line, and in its column where the end of what precedes is plain; positions of diagnostics by C09; import lines by the facts behind C10
* Result: **partial**. Theorems: `C70_parts`, `C70_file_partial`, `C70_lines`, `C70_tame_partial`, `C70_refuted_crlf`, `C70_refuted_tab`, `C70_refuted_import`. C70_file_partial covers every message of compile_file that shows a line, for texts without tabs, carriage returns and byte order marks. C70_tame_partial covers all texts in which no carriage return follows a # on its line: the line is right, and the column too if there is no tab, carriage return or byte order mark left of the part on its line. Refuted otherwise: a comment that ends in carriage return and line feed counts as two lines, so all lines below it are reported one too low; a tab counts as eight columns; and for an imported operation the line shown under the name of the compiled file may be a line of another file.

### C71 The layout of source files does not show in the output

If two source trees differ only in spacing, line breaks, commas and comments, leaving the import lines at the head of each file as they are, or in arguments, directives and default values, then the run of the compiler ends alike on both: same exit code, same text written to every output file and to the globals file, and the same messages up to the place they show and the parser's own words.

* Model: `Graphql`, `Ir`, `Pool`, `Main`, `Gql`. Specification: `SpecLayout`: a document without positions, arguments, directives and defaults; the import lines of a text; texts, messages, effects on the file system and process ends that differ in layout only.
* Method: simulation of collection and compilation on documents with equal essence; the import scan depends on the import lines only; hash orders via a zipped map; lock-step simulation of the worker pool; C69_layout for texts with the same tokens
* Result: **proved**. Theorems: `C71_file`, `C71_run`, `C71_tokens`, `C71_text`, `C71_refuted_indent`. C71_text is for the reader of Gql.v, C71_run for any parser and texts it gives essentially the same document. Both compare runs with the same schedule and the same hash orders, which may depend on the keys of a map but not on its values (by_keys). C71_refuted_indent shows why the import lines must stay as they are: an indented import line is not seen, though it is a comment for GraphQL.

### C72 What a server answers has the type exported for the document, from texts to texts

If qlc, started with some command line over some files, exits with code 0, then for every source file that holds a query, mutation or fragment the text written next to it reads as a TypeScript module that exports a document node; everything this module imports from the globals module is declared by the text written for the globals; and the first type argument of the node, as these two texts together declare it, accepts every response that a server with the schema of the schema file can give to the document.

* Model: everything from `Args` and `Json` through `Gql`, `Main`, `Pool`, `Ir`, `Codegen`, `Global` to the texts. Specification: `SpecLink`: the values of a type name in a module together with the globals module it imports from (a name means what its own module declares, else what is imported, else what the surroundings say); `SpecResp` for responses, `SpecArgs`, `SpecJtext`, `SpecGtext`, `SpecRead` for the texts.
* Method: C65, C67 and C69 lead from the texts to a run; C49 and C56 give the texts of the run and their reading; C04 gives acceptance over the declarations of one module; `LinkData` replaces its assumption on enums by the declarations of the globals file; `LinkExt` moves between lists of fragments with the same members
* Result: **partial**. Theorems: `C72_run_partial`, `C72_text_partial`. C72_text_partial starts from the words of the command line and the texts of the schema file and the documents, and ends at the texts written; C72_run_partial is the same for any parser. The conditions are those of C04 and C56: regular documents whose labels are kept apart (as in C18), no active @skip or @include, no nullable list of non-null lists in the schema, no name of a declaration equal to the name of a leaf type, self-contained imports, and node module and globals module of different names. Without them C04 has refutations. What custom scalars and the types of TypeScript accept is a parameter (surroundings).

### C73 The variables type of a document allows exactly the variables a server takes, from texts to texts

If qlc exits with code 0, then for every source file whose document has variables the text written next to it reads as a module whose exported node has the variables type as second type argument; and this type, as that module and the text written for the globals together declare it, allows a value without undeclared properties exactly if a server with the schema of the schema file takes it as the variables of a request for the document. Documents without variables have the argument never, fragments none.

* Model: as C72, with `Variable`, `Global` and `ts_variables`. Specification: `SpecInput`: input coercion of scalars, enums, input objects, lists and variables by a server, strict or lenient, from the introspection result; `wide_request` for scalars with null among their values; the values a module allows without undeclared properties.
* Method: C14 and C22 give the properties of the variables type, C54 and C56 the globals file; `RequestFacts` relates the values allowed for a type of the globals with the input values of the type, both directions by induction on the depth; the globals file is closed under references of input objects (C24, C56)
* Result: **partial**. Theorems: `C73_exact_partial`, `C73_run_partial`, `C73_text_partial`, `C73_lenient_refuted`, `C73_number_refuted`, `C73_nested_refuted`. C73_text_partial starts from the words of the command line and the texts of the schema file and the documents; C73_run_partial is the same for any parser. Shown in both directions for requests that spell everything out: what the server takes is allowed, and what is allowed is taken. Conditions: no list of lists in the fields of input objects (C73_nested_refuted, C26), no declared name of the document equal to the name of an input type. C73_exact_partial is exact with scalars as the surroundings have them, null included where a scalar is mapped to any. For the others the surroundings give the TypeScript types of the scalars of the schema at least (loose) or at most (tight) the values that the server takes; for number and Int the second does not hold (C73_number_refuted). A server takes more than is spelled out: a variable with a default may be left out, one item may stand for a list; the type refuses these (C73_lenient_refuted).

### C74 The exported result type allows exactly the possible responses, from texts to texts

If qlc exits with code 0, then for every source file the first type argument of the node exported by the text written next to it, as that text and the text written for the globals together declare it, allows a value without undeclared properties exactly if a server with the schema of the schema file can give it as the response to the document: nothing that can be answered is left out, and no property, null, literal or combination of keys is allowed that cannot be answered.

* Model: as C72. Specification: `SpecExact`: values without repeated keys, exact implementation of interfaces, `__typename` under one key, tight surroundings; `SpecInput`'s values allowed without undeclared properties; `SpecResp`'s responses; `SpecWide`: responses with scalars as the surroundings have them.
* Method: `ExactFacts`: with the description `des` of the declarations (DescFacts) by the selections, in one direction as C04 and in the other by induction on the depth: the object type is the one named under `__typename`, or any of those of the declaration; the wrapper translation is an equivalence (WrapFacts). `WideFacts`: the same when null is among the values of scalars. `LinkExact`: names from elsewhere mean the same for the module alone and linked with the globals
* Result: **partial**. Theorems: `C74_partial`, `C74_run_partial`, `C74_text_partial`, `C74_wide_partial`, `C74_exact_partial`, `C74_exact_text_partial`, `C74_wide_is`, `C74_tags_refuted`, `C74_covariant_refuted`, `C74_any_refuted`. C74_partial is about one document, C74_run_partial about a run with any parser, C74_text_partial starts from the words of the command line and the texts of the files and is an equivalence. That responses are allowed needs the conditions of C72. That nothing else is allowed needs three more, each with a refutation: object types have the fields of their interfaces with the same types (C74_covariant_refuted), no object is asked for __typename under two keys (C74_tags_refuted), and the surroundings give the names of TypeScript and of custom scalars no more than the values of the scalars, which fails for any (C74_any_refuted). C74_wide_partial, C74_exact_partial and C74_exact_text_partial ask nothing of the surroundings: the type allows exactly the responses in which scalars have the values that the surroundings give them, so that with any for a scalar null may stand for it and nothing else is lost. C74_wide_is: without null these are the responses.

### C75 The request of the download script is a valid introspection query, and its answer is as good as the schema

The bytes that qlc-download-schema sends are JSON whose query is a valid GraphQL document that asks for the introspection of the schema and for nothing else. With a server that answers it, the script exits with code 0, changes one file, and a run of qlc on that file is the run on any file with the complete introspection of that server's schema.

* Model: `introspection_text`, `js_quote`, `request_body`, `download_schema`, `answer`, `schema_of_text`, `qlc`. Specification: `SpecDownload`: `asked` (documents on the introspection schema, fragments expanded), `text_asks`, `responds`; `SpecGtext`, `SpecJtext`.
* Method: `AskFacts`: quoting is read back for every text, what a document asks for is unique; the literal query is parsed by evaluation (C69) and checked (`ask`); then C59, C60, C67
* Result: **partial**. Theorems: `C75_body`, `C75_text`, `C75_request`, `C75_download`, `C75_partial`, `C75_hidden_refuted`. C75_body is about JSON.stringify for every text. C75_text and C75_request: the literal query, and the body sent, ask for the introspection and nothing else, and are valid. C75_download says exactly what qlc reads afterwards. C75_partial: every run is the run with the complete schema, if there are no deprecations and at most seven wrappers (as C59). C75_hidden_refuted: the query does not pass includeDeprecated to inputFields, so a server of the later specification leaves deprecated input fields out, and the generated input type lacks them; no error is reported.

### C76 What a client infers from a generated module with DataOf and VariablesOf is right

A client imports the default export of an output and takes DataOf and VariablesOf of its type, with the helper types of the npm package. DataOf allows exactly the values a server can answer the document with. VariablesOf allows the variables of every request that spells them out, and nothing a server refuses; it is never if there are no variables.

* Model: `qlc_command`, `tsfile_items`, `node`, `data_of`, `variables_of`, `node_exports`, `package_paths`. Specification: `SpecClient`: `default_export`, `client` (the helper applied to the type of the default export, through the imports of the module and the exports of the package); `SpecLink`, `SpecExact`, `SpecInput`.
* Method: the written file's node and arguments are those of C13 (`written_as`), the helper types are those of C61; then C73 and C74, whose modules are the same because a text reads as one module only
* Result: **partial**. Theorems: `C76_run`, `C76_text_partial`, `C76_exact_partial`, `C76_fragment_refuted`. C76_run says for every document what DataOf and VariablesOf give for the default export of its output: the types of the document for queries (and for subscriptions, which are written as queries, finding of C13), BasicObject for mutations and fragments (C61). C76_text_partial joins this with C73 and C74, with their guards: for a query a client gets exactly the possible responses as data and the spelled out requests as variables. C76_exact_partial is the same with scalars as the surroundings have them, whatever these are, as two equivalences. C76_fragment_refuted is a run with a fragment.

### C77 A run depends on its sources only, and running again changes nothing

What a run writes and its exit code depend on the sources, their imports, the schema and the configuration only: not on the schedule, the number of workers, the order of the listings, or other files. A run changes no file but outputs and the file of globals. Running again on what a run has left, with its outputs now in the listings, gives the same exit code and changes no file, whether or not the first run failed. The messages of two such runs are the same up to order, but for the reason told of a directory in which several entries cannot be read, and for the one message of why the module of globals could not be made.

* Model: `qlc_command`, `run_work`, `entry_work`, `compile_file`, `finish_work`, `compile_globals_file`. Specification: `SpecAgain`: `relisted` (the same entries in any order and files not called like sources), `same_reads`, `same_changes`.
* Method: the tree of a relisted directory has the same items (`tree_again`), each of them once in both runs (C32, C43), and their results are the same as their reads are; aggregates are compared up to order, and C35 orders the file of globals
* Result: **partial**. Theorems: `C77_run`, `C77_untouched`, `C77_again_partial`, `C77_text_partial`, `C77_outputs`, `C77_refuted`. C77_run compares any two runs on the same sources, C77_untouched says what a run can change at all (both for every exit code). C77_again_partial is the run on what a run has left; its guard is that no source and no import is the file of globals, and that new files of the listing are not called like sources, which C77_outputs shows of the outputs. C77_text_partial is the same from texts, where the schema too is read from the disk left by the first run. Without the guard it is false: C77_refuted has a globals module called types.graphql, which the next run takes for a source. As C43 for the schedules: one worker, or no directory in a directory.

### C78 How a run can end

If no source imports itself, directly or not, no import lacks its closing quote, no spread fragment leads back to itself and no input object that is used contains itself, then a run never panics or overflows the stack, can always be continued to an exit, and with one worker exits after a number of steps that depends on the files only. Conversely an exit tells that each parseable source meets the first three, and exit code 0 that used input objects do not contain themselves; a panic tells of an import without closing quote. The depth of recursion given to the model does not matter once it suffices.

* Model: `qlc`, `run_work`, `compile_file`, `add_imports`, `finish_work`, `compile_globals_file`, the pool. Specification: `SpecEnd`: `well_formed`, `sound_source`, `spread_by`.
* Method: every fuelled function is monotone in its fuel (`qlc_mono`); per file C31, C12 and C27 give a depth that suffices, a finite tree has a greatest one; the run is then the run of a runner that always ends (`tot_steps`), so C38 and C36 apply; panics are traced to the step of the worker that panicked (`panicked_ran`)
* Result: **partial**. Theorems: `C78_depth`, `C78_can_exit_partial`, `C78_exits_partial`, `C78_exited`, `C78_panics`, `C78_refuted`. C78_can_exit_partial and C78_exits_partial give the exit for runs whose sources are well formed; C78_exited is the converse, C78_panics says where a panic comes from. A run that nothing schedules again stays under way, so with several workers only the possibility of an exit is claimed, with one worker the exit itself. Sources and outputs are separate files (C43). Without the guard it is false: C78_refuted has a document that imports itself. The converse of the spread condition speaks of the positions that the selections reach (leads_below), the guard of the spreads alone.

### C79 Exactly the valid projects compile

Call a project valid if every directory can be read, every output can be written, and every source holds one document, a named query or mutation or a fragment; whose imports end, are closed, exist and lead to fragments only; which selects existing fields and imported fragments, leaves without and composites with selections; and whose variables have existing input types that do not contain themselves, in lists of one level. A run on a valid project ends with exit code 0, and exit code 0 tells that the project is valid.

* Model: `qlc`, `run_work`, `compile_file`, `compile_document`, `compile_ir`, `finish_work`. Specification: `SpecProject`: `valid_source`, `valid_project`.
* Method: forwards: C31, C07, C05, C23 and C12 for each file give a compiled file with warnings only, C27 and C10 the globals, C78 the end of the run; backwards: the stages of each compiled file give the parts of `valid_at`, and the selections of imported fragments follow by induction along the imports, each being a source of its own (`source_sels`)
* Result: **partial**. Theorems: `C79_accepts`, `C79_exits_zero`, `C79_rejects`, `C79_exact_partial`, `C79_text_partial`, `C79_refuted`, `C79_outside_refuted`, `C79_twice_refuted`. C79_accepts and C79_exits_zero say that valid projects exit with 0, without exclusions. The converse, C79_rejects, excludes subscriptions, different fragments of one name reaching one source, and imports from outside the root directory; C79_refuted, C79_twice_refuted and C79_outside_refuted show that each is needed. C79_exact_partial is the equivalence for one worker and C79_text_partial the same from the texts of the command line, the schema and the documents. Assumed: sources and outputs are separate files (C43), each composite type of a field has an object type, and paths agree (C07).

### C80 An output depends on its source and what that imports, and on no other file

In two runs with the same configuration and schema over possibly different trees, a source that has the same contents in both, as do the files it imports directly or not, gets the same output, whatever the other files hold and even if the other files make one of the runs fail. After a successful run, editing, adding or removing files changes no output of a source that does not reach them, and if the next run fails, it reports an error of a source that reaches a changed file, or of the globals file.

* Model: `qlc`, `compile_file`, `add_imports`, the pool. Specification: `SpecFs`: `reads`, `is_source`, `out_loc`, `separate`.
* Method: compiling a file in two file systems that agree on what it reads gives the same result (`compile_agree`), the pool leaves at each output what compiling its source alone would (`run_outputs`), and the messages are those of the files (`log_results`)
* Result: **proved**. Theorems: `C80_output`, `C80_edit`, `C80_blame`. For one worker, or several over a flat tree, with sources and outputs separate files as in C43 (other runs may skip files, C36). C80_edit is about a run after edits; C80_blame says where a new error comes from.

### C81 Additions to the schema leave the outputs as they are

If the introspection result gets new types, new fields of objects and interfaces, another order of input fields or enum values, or other descriptions of types that are not enums, every valid project stays valid, its runs still end with exit code 0, and every output and the globals file is left the same, byte for byte, by one worker or by several over a flat tree (others may leave sources out, C36). (For projects whose fields under one response key agree in type, documentation and deprecation, as the output of others depends on hash order.)

* Model: `load_schema`, `compile_definition`, `compile_ir`, the globals file, `qlc`. Specification: `SpecGrow`: `added`, `grown`.
* Method: validity, possible types, occurrences and the collected selection are kept in both directions on what a document names (`coll_grown`), so the intermediate form is the same by uniqueness (`coll_det`); the names of the globals file lead to the same definitions (`file_grown`); the runs by C49 and C79
* Result: **proved**. Theorems: `C81_loaded`, `C81_module`, `C81_accepts`, `C81_outputs`, `C81_text_partial`. C81_refuted, C81_value_refuted and C81_member_refuted show what the conditions exclude: projects that are accepted though not valid, new enum values, new object types of an interface. C81_outputs is for one worker, or several over a flat tree. C81_text_partial is about two disks, from the texts of their files to the texts left there.

### C82 Where a fragment is spread, the response has the type exported for the fragment

After a run with exit code 0, take any source and any fragment file it imports, directly or through others. In every response of a server to that document, every object for which the fragment is executed, at any depth and through inline fragments and other spreads, is a value of the type that the output of the fragment file exports. So a component typed by its fragment can be handed that part of the data of every query that spreads it.

* Model: `compile_definition`, `compile_ir`, `qlc`. Specification: `SpecPart`: `applied`, `spread_at`, `unmixed`, beside `SpecResp`.
* Method: what the fragment collects for an object is collected by the document that spreads it (`applied_collects`), under each key of the same field (`unmixed`), so the value has the fragment's property with a type the value has; at the next depth the fragment's selections are among the document's again (`object_shown`, along `des` as C04). Imports of the fragment file are imports of the document (`frags_through`); the two modules are linked as in C72 (`run_module`)
* Result: **partial**. Theorems: `C82_module_partial`, `C82_run_partial`, `C82_text_partial`, `C82_refuted`. Guards: as for C04, but only on the fragment and its own imports; of the document nothing but that no key of an object stands for two fields (which GraphQL demands). C82_refuted: object types that share a declaration of the fragment.

### C83 The type of a query is assignable to the type of a fragment where it is spread

After a run with exit code 0, take any source and any fragment file it imports, directly or through others, and any path of keys along which the source spreads the fragment for every object type an object there can have. Whatever value the type exported for the source accepts, its objects along that path (in all items of lists) are accepted by the type exported for the fragment, whatever the names from elsewhere mean. This is about the types alone, not about what servers return: a TypeScript program that passes that part of a query's result to something typed by the fragment is well typed.

* Model: `compile_definition`, `compile_ir`, `qlc`. Specification: `SpecAssign`: `at_path`, `spread_for`, `spread_along`; `tagged_once` of `SpecExact`.
* Method: a value of the document's type has the members of one of the object types it stands for, told by the value of `__typename` if there is one (`one_type`); for that object type the fragment selects some of the same fields, so the declaration the fragment has for it has members of the same types, or of types the induction relates (`object_sub`, on both `des` at once); along the path by `path_sub`. The modules are linked both ways (`linked_accepts`, `linked_back`)
* Result: **partial**. Theorems: `C83_module_partial`, `C83_run_partial`, `C83_text_partial`, `C83_refuted`, `C83_refuted_tags`. Guards: both documents regular, the names of leaf types not declared by either, labels of the fragment apart, and __typename under one key only in the document. No guard on directives, wrappers or custom scalars. C83_refuted: object types that share a declaration of the fragment but not of the query; C83_refuted_tags: two keys for __typename.

### C84 How a request is divided into fragments and files does not show in its module

Two projects with the same schema and options, both compiled with exit code 0. A source of the one and a source of the other, with the same kind, name, type condition and variables, that collect the same fields for every object type at every depth, each with the fragments it imports: the output files are the same, byte for byte. If every source of either has such a counterpart in the other, the files of globals are the same as well. In particular fragments may be renamed, written inline, extracted, merged, moved to other files and imported through others, and the source itself may be moved.

* Model: `compile_definition`, `compile_ir`, `qlc`. Specification: `SpecRecast`: `recast`, `same_head`, `collects_same`, `rename_sel`.
* Method: the intermediate representation is determined by what is collected, with two maps of fragments (`coll_det2`); renaming and inlining keep what is collected (`occ_recast`, `recast_collects`), by induction on the finite depth of `settled`; changes compose (`collects_trans`); the runs by `run_compiled` for both, the globals by their sorted list of definitions
* Result: **partial**. Theorems: `C84_module_partial`, `C84_renamed`, `C84_recast`, `C84_rewritten`, `C84_composed`, `C84_run_partial`, `C84_text_partial`, `C84_refuted`. Guard: the fields an object type has under one key agree in type, description and deprecation, at every depth. The two runs of C84_run_partial and C84_text_partial have the same options for what is generated; root directory and import prefix may be others. C84_refuted: without it, moving a selection into a fragment changes the description that is written.

### C85 Every way into the installed package leads to the build for the machine

Once the package of a release is installed on a supported machine, the path that the package exports and the file linked as the command qlc are one and the same file; it is the build of that release for that machine, and executable. Nothing else in the file system has changed, and the archive is gone. If what is served does not verify, the installation fails and no file but the archive is touched. Exactly the package itself and its typed-documentnode can be imported, exactly the commands qlc and qlc-download-schema exist, and the files behind all of them, with their declarations, are published. The default import of the package is a string, as declared.

* Model: `main_export`, `bin_path`, `node_join`, `node_resolve`, `bin_link`, `perform`, `install`, `release`. Specification: `PropC85`: `directory`, `plain_name`; paths written out in the statements.
* Method: joining pieces to a directory of any depth (`normal_join`, by induction on its names), the published text through C68, the actions of an installation by their shape (`install_acts`)
* Result: **partial**. Theorems: `C85_entries`, `C85_paths`, `C85_installed`, `C85_refused`, `C85_import`, `C85_import_refuted`. Everything but the last clause for modules compiled to CommonJS without esModuleInterop: there the import is undefined, although index.d.ts declares a string (C85_import_refuted).

### C86 Options change only what they are for

Two runs on the same files with the same root directory, import prefix and schema, whatever the other options, the numbers of threads and the schedules, have the same exit code and write the same files (the module of globals under its own name). The texts are the same but for the places that the options are for: readonly after the indentation of a property, the text that stands for a custom scalar, and the names of the modules of documents and of globals in imports. Each of these places differs only if its own option does: with the same options of this kind the texts are equal. The messages are the same but for warnings of deprecated fields, which only appear if asked for, and are the same if both runs ask for them, and but for the last one if the module of globals could not be made (in both runs then).

* Model: `qlc`, `qlc_command`, `compile`, `render`, `compile_globals_file`. Specification: `SpecSetting`: `differs`, `option_place`, `changed_alike`, `told_alike`.
* Method: the compiler and the printer related function by function for two configurations (`SettingFacts`), warnings of deprecations filtered out of the messages; then file by file over what the pool completed (`SettingRun`)
* Result: **partial**. Theorems: `C86_run_partial`, `C86_none`, `C86_readonly`, `C86_scalars`, `C86_modules`, `C86_text_partial`. Assumes that the written files are apart from the files read (C35), that input types are declared consistently and, if the module of globals is renamed, that both files can be written; several threads need a flat tree. The message of why the module of globals could not be made is not compared: with several reasons, which one is told depends on the hash order.

### C87 Renaming a document renames its types and nothing else

For every query, mutation or fragment there is one text with places for a name, such that under every name the generated module is that text with the name in these places; the warnings, and the types it needs from the module of globals, do not depend on the name. A document that is rejected is rejected under every name with the same errors. In projects where any documents are renamed, fragments along with their spreads, every output differs in the name of its own document only (so that the new name of a fragment shows in no other output), and the module of globals is the same.

* Model: `compile_definition`, `compile_ir`, `qlc`, `qlc_command`. Specification: `SpecRename`: `fill`, `under_name`; `same_head` and `collects_same` of C84.
* Method: the printer by induction on the intermediate representation, with the path of a declaration as a text with places for the name (`render_uniform`); C84_module_partial for what else may differ between two projects
* Result: **partial**. Theorems: `C87_printed`, `C87_module`, `C87_rejected`, `C87_run_partial`, `C87_text_partial`. C87_module and C87_rejected are for all documents. For runs, C87_run_partial and C87_text_partial assume what C84 does (settled requests, outputs apart from sources; root directory and import prefix may be others), and that both exit with code 0 (for the exit codes see C93).

### C88 Selecting more gives a type that is assignable to the type before

Let one document select all that another selects: for every object there can be, a field of the same type under the same key, and of it all that the other selects. It is so when anything is added anywhere to a document and to its fragments. Then every value that the type exported for it accepts is accepted by the type exported for the other, whatever the names from elsewhere mean. So a TypeScript program that uses the result of a query remains well typed when selections are added, reordered, or moved into fragments.

* Model: `compile_definition`, `compile_ir`, `qlc`, `qlc_command`. Specification: `SpecMore`: `kept`, `frags_kept`, `selects_more`; values of types as in C04.
* Method: by induction on the depth of acceptance, between the descriptions (`des`) of two modules: an accepted object has the members of one object type (`one_type`, of C83), whose keys the other declaration has too (`object_narrow`)
* Result: **partial**. Theorems: `C88_kept`, `C88_module_partial`, `C88_run_partial`, `C88_text_partial`, `C88_refuted`, `C88_refuted_tags`. Guards: both documents regular, __typename under one key only in the document that selects more, labels of the other apart, and the names of leaf types not declared by either. No guard on directives, arguments, variables or wrappers. C88_refuted: a selection that ends the sharing of a declaration; C88_refuted_tags: one that begins it, with two keys for __typename.

### C89 A schema that promises more gives a type that is assignable to the type before

Let a schema be changed so that it promises more about responses: types and fields are added, types of fields get non-null marks, values are taken from enums, object types vanish from everywhere. Let documents be changed so that they select more (C88). Then every value that the type exported for a document after the change accepts is accepted by the type exported before, whatever the names from elsewhere mean. So a TypeScript program that uses the result of a query remains well typed.

* Model: `load_schema`, `ftype_of_json`, `compile_definition`, `compile_ir`, `qlc`, `qlc_command`. Specification: `SpecPromise`: `stricter`, `answers_more`, `leaves_kept`, `promises_more`; `kept` of C88.
* Method: the wrappers of a loaded type as sets of values over any inner set (`builder_any`), monotone in non-null marks (`stricter_values`); otherwise as C88, between the descriptions of modules from two schemas (`object_answers`); from changes of a schema by induction on the selections (`changed_answers`)
* Result: **partial**. Theorems: `C89_changed`, `C89_module_partial`, `C89_run_partial`, `C89_text_partial`, `C89_refuted`, `C89_needs_fewer`. Guards: those of C88, and no nullable list of non-null lists in either schema (C89_refuted, by C01). C89_needs_fewer: object types may not be added to interfaces or unions.

### C90 Callers stay well typed when variables and input types require less

Let the variables of a document and the input types of a schema be changed so that they require less: variables and input fields lose non-null marks or are added as nullable ones, enums get more values, types are added. Then every value that the variables type exported before the change allows is allowed by the variables type exported after it, no property being allowed that is not declared. In any case a value allowed by both has all variables that one of them requires and only variables of both, so that a new required variable, or a variable that is gone, breaks its callers.

* Model: `load_schema`, `try_build_variable_ir`, `compile_ir`, `compile_globals`, `qlc`, `qlc_command`. Specification: `SpecRequire`: `requires_less`, `asks_less`, `meets`; `request`, `wide_request` and `module_allows` of C73.
* Method: by C73 in both projects, with scalars taken as the surroundings have them (`surrounding`), from the monotonicity of requests (`C90_requests`, by induction on the depth of values)
* Result: **partial**. Theorems: `C90_requests`, `C90_run_partial`, `C90_text_partial`, `C90_refuted`. Guards: those of C73, for both projects; nothing is asked of the surroundings, so that scalars mapped to any are covered. C90_refuted: a list of lists in an input object (C26) that need not be given any more. The second half of the run theorems says what breaks callers: a new variable that is required, a variable that is gone.

### C91 Code that uses a query by the helper types survives changes for the better

Let a project be changed, documents or schema, and let qlc run before and after with the node module of the package. For a client that imports the default export of the output of a query: if the second query is answered with more than the first (C89), whatever DataOf accepts after the change it accepted before, so that code reading responses stays well typed; if less is required of the variables (C90), whatever VariablesOf allowed before the change it allows after it, so that code making requests stays well typed. A query without variables gives never before the change.

* Model: `qlc_command`, `node_exports`, `data_of`, `variables_of`. Specification: `SpecClient`: `client`; `answers_more` of C89; `requires_less`, `asks_less` of C90.
* Method: from `C76_run` in both projects (which name the helpers give) with `C89_text_partial` and `C90_text_partial`, the modules being the same since texts read as one module only
* Result: **partial**. Theorems: `C91_text_partial`. Guards: those of C89 for what is answered and of C90 for what is asked for, queries only (for mutations and fragments the helpers give BasicObject, C76_fragment_refuted) and the node module of the package. The refutations are those of C89, C90 and C76.

### C92 The order in which the introspection result lists things does not show

Let two introspection results declare the same types, listed in another order, with fields, input fields, enum values and possible types listed in any order. Then one can be loaded exactly if the other can, the same projects are valid, a run exits with 0 with one exactly if a run does with the other, and every output and the globals file is left the same, byte for byte.

* Model: `load_schema`, `qlc`, `compile_definition`, `compile_ir`, the globals file. Specification: `SpecRearrange`: `rearranged`, `declared_once`; `grown` of C81.
* Method: a rearranged introspection result is one with nothing added, in both directions (`rearranged_added`), so C81 applies both ways; what C79 and C81 ask of the second schema follows from the first (`both_consistent` and following); exit codes by `C79_exact_partial`
* Result: **partial**. Theorems: `C92_loaded`, `C92_unreadable`, `C92_accepts`, `C92_outputs_partial`, `C92_exits_partial`, `C92_text_partial`, `C92_refuted`. Guards: no name declared twice in the introspection result (C92_refuted: the last declaration counts); as in C81, fields under one response key agree in type, documentation and deprecation, and one worker or a flat tree. C92_accepts and C92_outputs_partial are for valid projects; C92_exits_partial is for all projects, one worker and the exclusions of C79. Messages are not compared.

### C93 Operations and fragments can be renamed throughout a project

Let all documents of a project get new names, fragments together with all their spreads, no two fragments getting the same name, with the import lines as they were. The project is valid under the new names exactly if it was under the old ones, and a run exits with 0 exactly if one did before. Each output then differs in the name of its own document only: the new name of a fragment shows in no module but its own, and the module of globals is the same, byte for byte.

* Model: `qlc`, `add_imports`, `compile_definition`, `compile_ir`, the globals file. Specification: `SpecRefactor`: `one_to_one`, `respread`, `retitled`, `retitled_files`; `valid_project` of C79, `fill` of C87.
* Method: files with the same import lines reach the same files (`reach_matched`); the fragments brought under the new names are built from those under the old ones (`new_fragments`), so that selections are recast in the sense of C84 (`respread_recasts`) and valid sources stay valid (`valid_at_matched`); the relation is symmetric (`files_flip`). Exit codes by C79, outputs by C87
* Result: **partial**. Theorems: `C93_valid`, `C93_exits_partial`, `C93_outputs_partial`, `C93_text_partial`, `C93_refuted`. Guards: the new names of fragments are one to one and no two fragments of one name reach a source (C93_refuted: otherwise another fragment may be meant, and nothing is reported); C93_exits_partial has one worker and the exclusions of C79. C93_outputs_partial and C93_text_partial are for valid projects whose fields under one response key agree in type, documentation and deprecation, with one worker or a flat tree, and all operations named. Messages are not compared (they quote lines of the sources).

### C94 Descriptions and deprecations of a schema change comments and warnings only

Let two introspection results differ in descriptions of types and fields and in marks of deprecation only. Both are refused for the same reason or both are read, with the same types. A project is valid with one exactly if it is with the other, and a run exits with 0 exactly if one does with the other. Every file the run leaves is then the same, or has a text that reads as the same TypeScript statements, and only outputs and the globals file differ.

* Model: `load_schema`, `qlc`, `compile_definition`, `compile_ir`, the globals file. Specification: `SpecDocs`: `redescribed`; `valid_project` of C79, `only_reads` of C56, `reads_alike`.
* Method: `nodoc` deletes the documentation of a read schema; the schemas of both results are equal under it (`redescribed_load`), and validity, consistency and what is collected do not depend on what it deletes (`nodoc_valid`, `nodoc_collected` ...). The declarations of a document are the same but for their comments (`modules_alike`, through the determinism of settled collections), those of a global type too (`says_alike`); both texts are read by C53 and C54. Exit codes by C79, the step to texts by C77
* Result: **partial**. Theorems: `C94_loaded`, `C94_module_partial`, `C94_accepts`, `C94_exits_partial`, `C94_outputs_partial`, `C94_text_partial`, `C94_refuted`. Guards: names that can be declared and no description of either schema that ends its comment (C94_refuted: such a description declares a type, finding 10). C94_exits_partial has one worker and the exclusions of C79. C94_module_partial, C94_outputs_partial and C94_text_partial are for valid documents whose fields under one response key agree in type, documentation and deprecation, with one worker or a flat tree; the modules are compared as the statements they read as (only_reads), their comments are not. C94_text_partial leaves out the location of the schema file itself. Messages are not compared (deprecation warnings are C10's).

### C95 Unions are told apart by __typename

Let a selection ask for __typename under some response key whatever the type of the object is. Then the exported type is a discriminated union: each alternative declares that key as a union of string literals, the names of all types the object can have occur, each in exactly one alternative, and each alternative has exactly the properties asked of its types. A value that the union accepts has one of these names under the key, and comparing the key with a name leaves exactly the alternative of that name. The same holds for every selection nested in an alternative.

* Model: `compile_definition`, `compile_ir`; `qlc` for the outputs of runs. Specification: `SpecNarrow`: `tagged_by`, `literals_at`, `narrows`, on the declarations the text reads as.
* Method: From the exact cover of C16 (`covered_narrows`): the literal union of a tag key denotes exactly the names of the alternative, so the alternatives partition the possible types and an accepted object has its tag in one of them. Runs by `run_compiled`, texts as in C72. The refutation inverts `narrows` down to the shared owner
* Result: **partial**. Theorems: `C95_partial`, `C95_run_partial`, `C95_text_partial`, `C95_refuted`. Guards: regular documents (C95_refuted: one declaration for owner is shared although Cat, Dog and Eel select different things under it, so what is left after comparing with Dog lacks the property asked for, finding 1), no subscriptions, and for the written text a name that is not reserved. Narrowing is stated on values: of the values a union accepts, those whose tag is T are accepted by exactly the alternative that carries T.

### C96 Source files can be moved, if their import lines follow

Move source files to other directories, or the whole project elsewhere, and rewrite their import lines, in any order, so that they lead to the same files as before; the root directory and the prefix of import lines may be set to others. The project compiles if and only if it did. Each output is beside its source's new place and is the same byte for byte, and so is the module of global types.

* Model: `qlc`, `add_imports`, `compile_definition`, `compile_ir`, the globals file. Specification: `SpecMove`: `moved_file`, `moved_files`, `moved_project`; `valid_project` of C79.
* Method: a relation of old and new paths, preserved along import lines both ways, so the same files are reached (`reach_moved`) and the same fragments brought (`moved_fragments`); valid sources stay valid (`valid_at_moved`), and the relation is symmetric. Exit codes by C79, outputs as in C84, for configurations that differ in root directory and import prefix (the printers do not look at these: `even_ir` of `PlaceFacts`)
* Result: **partial**. Theorems: `C96_valid`, `C96_exits_partial`, `C96_outputs_partial`, `C96_text_partial`, `C96_refuted`. Guards: no two fragments of one name reach a source (C96_refuted: otherwise the order of import lines decides which is meant, and nothing is reported); C96_exits_partial has one worker and the exclusions of C79. C96_outputs_partial and C96_text_partial are for valid projects whose fields under one response key agree in type, documentation and deprecation, with one worker or a flat tree, and the same options for what is generated (same_output_options; the root directory and the prefix of import lines may be others, as in C96_nonvacuous). Messages are not compared (they name paths).

### C97 Import lines that are not needed can be left out

Leave out import lines of source files, as long as each document still imports, directly or not, the fragments it spreads, those that these spread, and so on. A project that compiled compiles, every output is the same byte for byte, and so is the module of global types.

* Model: `qlc`, `add_imports`, `compile_definition`, `compile_ir`, the globals file. Specification: `SpecTrim`: `needs`, `needs_kept`, `trimmed_project`; `valid_project` of C79.
* Method: what is reached now was reached before (`reach_trimmed`); the fragments now brought are a finite map by C31 (`brought_map`), which agrees with the former one on what is needed (`needed_recasts`, by induction on valid selections); the rest as in C96
* Result: **partial**. Theorems: `C97_valid`, `C97_outputs_partial`, `C97_text_partial`, `C97_refuted`. Guards: no two fragments of one name reach a source (C97_refuted: the import that is left out may have brought the fragment that was taken, and nothing is reported). C97_outputs_partial and C97_text_partial are for valid projects whose fields under one response key agree in type, documentation and deprecation, with one worker or a flat tree, and the same options for what is generated (the root directory and the prefix of import lines may be others). Only one direction: import lines that are added may lead to missing files, operations or back. That what a document needs is still imported is asked for per source (needs_kept). Messages are not compared.

### C98 Source files that nothing else needs can be deleted

Delete source files, and the import lines that lead to them, as long as each document that stays still imports the fragments it needs. A project that compiled compiles, the output of each source that stays is the same byte for byte, and the module of global types has the same definitions in the same order, some left out.

* Model: `qlc`, `add_imports`, `compile_definition`, `compile_ir`, the globals file. Specification: `SpecPrune`: `pruned_project`, `part_of`; `needs_kept` of C97; `valid_project` of C79.
* Method: each source that stays as in C97; the globals used by what stays were used before, and of two sorted lists without repetitions the included one is a part of the other (`sorted_part`, `part_images`); in place by C80 (`compile_agree`)
* Result: **partial**. Theorems: `C98_valid`, `C98_in_place`, `C98_outputs_partial`, `C98_text_partial`, `C98_refuted`. C98_in_place has any documents, and no guard on fragments or fields: files are deleted that no source that stays reads, and nothing else is changed. In it the globals are compared if the smaller project compiles; that it does is in C98_outputs_partial. Guards of the others: no two fragments of one name reach a source (C98_refuted: the deleted file may have held the fragment that was taken, and nothing is reported). C98_outputs_partial and C98_text_partial are for valid projects whose fields under one response key agree in type, documentation and deprecation, with one worker or a flat tree, and the same options. The clause about the module of globals is for a remaining project that uses a global. What an earlier run left at the output of a deleted source is not the subject. Messages are not compared.

### C99 Source files can be added

Add source files that are valid. A project that compiled still compiles, the output of each former source is the same byte for byte, and the module of global types has the former definitions, in the same order, with others between them at most.

* Model: `qlc`, `add_imports`, `compile_definition`, `compile_ir`, the globals file. Specification: `SpecAdd`: `enlarged_project`; `moved_files` of C96, `part_of` of C98, `valid_source` of C79.
* Method: each former source as in C96; the globals as in C98, the other way round; in place by C80 (`compile_agree`)
* Result: **partial**. Theorems: `C99_valid`, `C99_in_place`, `C99_outputs_partial`, `C99_text_partial`. C99_in_place has any documents, and no guard on fragments or fields: files are added to a project that compiled and the former ones stay where they are; the outputs of these are the same even if others fail. In it the globals are compared if the larger project compiles; that it does is in C99_outputs_partial. Guards of the others: no two fragments of one name reach a source of the larger project. C99_outputs_partial and C99_text_partial are for valid projects whose fields under one response key agree in type, documentation and deprecation (otherwise not even two runs on one project need agree, C04), with one worker or a flat tree, and the same options. The files that are added are valid on their own (valid_source of C79). The clause about the module of globals is for a former project that used a global. Messages are not compared.

