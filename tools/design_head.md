# Formal model of notarize/qlc in Rocq (Coq 8.16.1)

qlc reads a GraphQL introspection result and a directory tree of `.graphql` files, and writes a
TypeScript declaration file beside each of them plus one file of shared ("global") types.  This
directory contains a model of that program in Gallina and theorems about the model.

* `properties.jsonl` - the claims, in English (generated by `tools/props.py`).
* `MANIFEST.json` - which theorems stand for which claim (generated by `tools/manifest.py` from
  `tools/claims.py`).
* `rocq/theories` - the development; build with
  `coq_makefile -f _CoqProject -o Makefile && make -j4` in `rocq` (five to fifteen minutes on four cores).
* `seeded/LOG.jsonl` - wrong programs on which the theorems were tried out.
* This file - generated by `tools/design.py` from `tools/design_head.md` and the claims.

## 1. Trusted base

1. **Coq's kernel** (8.16.1), including its virtual machine: examples, refutations and fidelity tests
   are evaluated with `vm_compute`.
2. **Axioms: none.**  Every theorem named in MANIFEST.json is followed by `Print Assumptions`, and each
   prints `Closed under the global context`.  There is no `Axiom`, `Parameter`, `Admitted`, `admit`,
   open obligation, functor, module type or disabled kernel check in the sources.
   A scan of the *loaded libraries* (as done by `coqchk -o` or by the checking tool) lists seven names:
   `Coq.ssr.ssrunder.Under_rel.{Under_rel, Under_rel_from_rel, Under_relE, under_rel_done, Over_rel,
   over_rel, over_rel_done}`.  They are fields of a sealed module of the standard library, loaded
   because `Coq.Setoids.Setoid` (needed by `lia` and by rewriting) requires it; no theorem uses them, as `Print Assumptions` shows.
3. **The reading of the code.**  The model was written by reading /repo; nothing was extracted or run.
   Two things support it: each definition cites the file and lines it stands for, and `Fixtures.v`
   (generated by `tools/fixtures.py`) runs all 39 of the repository's own tests of the command
   (tests/cli.rs, schema.rs, typescript.rs) on the model: from the command line and the texts of the
   files (GraphQL, schema JSON, configuration JSON) through readers, work queue, compiler and renderer.
   It compares exit codes, the expected texts on standard output and every expected file byte for byte,
   under two different hash orders.  The words of serde_json and graphql_parser in error messages are
   not compared.  Those are tests of the model, not proofs.
4. **The specifications** in `Spec*.v`: what GraphQL and TypeScript mean is written down there,
   separately from the model.  `SpecGql` (type references and their values), `SpecSel` (field
   collection and validity of selections), `SpecResp` (responses of a server) follow the GraphQL
   specification; `SpecTs` (type expressions: syntax, reader, values), `SpecMod` (modules), `SpecRead` (reader of module texts) and `SpecDoc`
   (block comments) describe the fragment of TypeScript that occurs in generated files.

## 2. What is modelled

| code | model | remarks |
|------|-------|---------|
| src/graphql/schema/json.rs | `Schema.v`, `Decode.v`, `Json.v` | complete, from the text on |
| src/graphql/schema/field.rs | `Schema.v` | complete |
| src/graphql/schema.rs | `Schema.v`, `Main.v` (`parse_schema`) | complete |
| src/graphql/ir.rs | `Ir.v`, `Cli.v` (messages) | complete; traversals are values, explicit fuel for recursion depth |
| src/graphql/variable.rs | `Ir.v`, `Cli.v` (messages) | complete |
| src/typescript.rs, src/typescript/field.rs | `Typescript.v`, `Cli.v` (messages) | complete, to the exact bytes of the output |
| src/graphql.rs | `Graphql.v`, `Typescript.v` (configuration types) | complete over a file-system parameter |
| src/cli.rs | `Cli.v`, `Decode.v` (configuration file), `Colour.v` (colours), `Strsim.v` (suggestions), `Args.v` (command line) | complete |
| strsim 0.10.0, colored 2.0.4, clap 4.4.6, serde_json 1.0.107 (crates) | `Strsim.v`, `Colour.v`, `Args.v`, `Json.v` | the parts used, after their published source |
| src/worker_pool.rs | `Pool.v` (threads), `Main.v` (work items, aggregation), `Fine.v` (single file operations) | interleaving semantics |
| src/main.rs | `Main.v` (`qlc`) | complete |
| std::path | `Path.v` | the operations used, for Unix, on byte strings |
| pkg/npm/lib/postinstall.js | `Npm.v` | decision logic |
| pkg/npm/lib/download.js | `Download.v` | text of the query, the request body, a server's answer; effects on files |
| pkg/npm/package.json, lib/typed-documentnode.d.ts | `Package.v` | exported paths; names and numbers of parameters of exported types |
| pkg/npm/lib/index.js, lib/index.d.ts, bin, entries of package.json; path.join and the resolution of packages in Node.js | `Entry.v` | paths as texts; effects of the installer on files |
| .circleci/bin/*.sh, .circleci/config.yml, pkg/npm/package.json | `Release.v` | names, checksums, tags and contents of what is published |
| graphql-parser 0.4.0 (called in src/graphql.rs:71) | `Gql.v` | tokens and their positions, grammar, recursion limit |
| lib/typed-documentnode.d.ts: helpers | `Nodes.v` | conditional types with optional properties |

Conventions.

* `String` and `&str` are Coq `string`s (byte strings).  The code only ever cuts strings at ASCII
  characters it has found, or at positions whose failure to be a character boundary cannot arise; slicing
  out of range is an explicit panic.
* `HashMap`s are association lists.  Wherever the code iterates over one, the model asks an *order
  oracle* (`order`, `order_ok`), a parameter that may permute the entries differently at every site.
  Theorems hold for every such oracle; C07 is about the dependence on it.
* A `panic!` is the outcome `Panics`.  Unbounded recursion is `Diverges`: recursive functions take a
  depth bound, and "the code does not terminate" is "`Diverges` for every bound".  Theorems about
  results assume some bound that is enough; C12, C27 and C32 say exactly when there is one.
* Everything outside the program is a field of the record `env` (`Graphql.v`) or `world` (`Main.v`), over
  which the theorems quantify: the GraphQL parser, the file system, path resolution, success and failure
  of writes, the edit distance used for suggestions, hash orders, directory listings, the decoded
  command line and configuration.

## 3. What is not modelled

* serde_json: error texts; that decoding happens while reading (`Json.v` reads first and decodes then, which differs
  in nothing but the error text).  `qlc` itself takes the decoded data as a parameter, which C57, C58 and C67 instantiate.
* `graphql_parser::parse_query`: a function parameter from text to syntax tree or error text, so most claims hold for any
  parser. C69, C70 and the theorems named `_text` or `_text_partial` (C71 to C74, C76, C77, C79, C81, C82, C83, C84, C86, C87, C92, C93, C94, C95, C96, C97, C98, C99) are about a model of it (`Gql.v`), written after graphql-parser 0.4.0 as the crate's source is not in
  the repository; there, which numbers and string escapes it accepts remain parameters and the texts of its errors are not
  modelled.
  The other claims say nothing about which texts parse and take positions as the parser gives them.
  The syntax tree keeps arguments, directives and default values as opaque text.
* clap: texts of help and usage errors, arguments that are not UTF-8.  `qlc` takes the decoded arguments; `qlc_command`
  (`Args.v`, C65) starts from the words of the command line.
* Colours and the edit distance of strsim are not part of `qlc`: its output is the uncoloured one, and the
  distance is a parameter.  C63 instantiates the parameter, C64 relates coloured and uncoloured output.
* crossbeam: the channel is an unbounded FIFO queue with atomic send and receive.  Atomics are
  sequentially consistent, as in the code.  `Work::run` is one atomic step in
  `Pool.v`; `Fine.v` has the reads and writes of different workers interleave, and C62 says that this makes
  no difference unless a file that is read is also an output.  Writes in `Fine.v` go through arbitrary
  intermediate contents but end with the contents written (no two writers of one file mix theirs).  The 1 ms sleep changes nothing.
* The operating system: one file system state, changed only by qlc; directory listings fixed during a run;
  no signals, no exhausted memory, no output errors on the terminal.  Stack overflow is the only
  consequence of `Diverges`.
* Fairness: C38 and C40 say that runs can always end, or that every run has bounded length; no theorem
  assumes that the operating system schedules fairly.
* pkg/npm/lib/postinstall.js: timing, truncated transfers other than as a different body, other
  processes.  download.js: interrupted transfers.  Entry points: symbolic links, patterns and conditions in `exports`.
* Release scripts: failing commands other than grep, credentials, how GitHub renames files with unusual characters.
* Windows paths.

## 4. Layout of rocq/theories

* **Model** (no proofs): `Base`, `Schema`, `Ast`, `Ir`, `Typescript`, `Path`, `Cli`, `Graphql`, `Pool`,
  `Main`, `Fine`, `Decode`, `Npm`, `Package`, `Download`, `Nodes`, `Strsim`, `Colour`, `Args`, `Json`, `Release`, `Entry`, `Gql`.
* **Tests of the model**: `Fixtures`.
* **Specification** (independent of the model's helpers): `SpecTs`, `SpecGql`, `SpecSel`, `SpecIr`,
  `SpecMod`, `SpecFile`, `SpecVar`, `SpecShape`, `SpecDiag`, `SpecReg`, `SpecDecl`, `SpecResp`, `SpecCli`,
  `SpecPool`, `SpecTree`, `SpecPath`, `SpecLoad`, `SpecImport`, `SpecDoc`, `SpecGlobal`, `SpecFs`, `SpecRead`, `SpecKeys`, `SpecName`, `SpecStmt`, `SpecJson`, `SpecDownload`,
  `SpecEdit`, `SpecTerm`, `SpecLook`, `SpecArgs`, `SpecMsg`, `SpecJtext`, `SpecGtext`, `SpecGpos`, `SpecLayout`, `SpecLink`, `SpecInput`, `SpecExact`, `SpecClient`, `SpecAgain`, `SpecEnd`, `SpecProject`, `SpecGrow`, `SpecPart`, `SpecAssign`, `SpecRecast`, `SpecSetting`, `SpecRename`, `SpecMore`, `SpecPromise`, `SpecRequire`, `SpecWide`, `SpecRearrange`, `SpecRefactor`, `SpecDocs`, `SpecNarrow`, `SpecMove`, `SpecTrim`, `SpecPrune`, `SpecAdd`.
* **Lemmas**: `*Facts`, `*Main`, `*Props`, `SelRun`, `TravEq`, `CollectEq`, `FragExt`, `LinkData`, `LinkExt`, `RunDet`, `Rewrite`,
  `Compiled`, `DocDesc`, `FineSim`, `FineMore`, `ShapeIr`, `GlobalText`, `ImportTerm`; checkers used in examples: `RegCheck`,
  `IntroCheck`, `JsonCheck`; concrete surroundings for examples: `*Worlds`, `Worlds`.
* **Properties**: `PropCxx.v`, one per claim, each theorem followed by `Print Assumptions` and by examples
  that meet its hypotheses.

The main chain of reasoning for documents: `CollectMain` (field collection computes, per object type, the
occurrences that `SpecSel` prescribes) - `IrFacts`/`ShapeIr` (conversion to the intermediate
representation) - `RenderFacts`/`FileFacts` (the text written is the text of a module tree of `SpecMod`) -
`DescFacts`/`DeclFacts` (what the declarations of that tree say about each object type) - `RespFacts`
(responses inhabit the declared types).

How names are chosen: `Cxx_partial` proves the claim under a guard that the statement spells out;
`Cxx_exact` says that the guard is also necessary; `Cxx_refuted` exhibits a case in which the claim is
false of the code.  A claim that the code violates has status "partial" in the manifest.

## 5. Findings: where the code violates a claim

1. C01, C26: `[[T]!]` and list nestings of input fields are translated to a type with null in the wrong place.
2. C03, C04, C16, C23, C35: object types whose selected key sets agree share one declaration, although the
   sub-selections below those keys may differ.  Selections and enum imports are silently lost.
3. C04: `@skip` and `@include` are ignored, so that a missing key is not accepted by the generated type.
4. C05, C06, C13: subscriptions are resolved against the type Query and exported as queries.
5. C05: selecting an abstract type without object types fails with an internal error.
6. C07, C48: of two descriptions of the same property, the one written depends on order (of selections, or
   of hash-map iteration).  Two files that define one fragment name: hash order decides.  Lists of possible
   types in messages appear in hash order.
7. C08: a type condition that names an input object leads to an internal error.
8. C11, C34, C35: problems in imported fragments are suppressed if the file is not itself a source file.
9. C18: one response key can be listed twice (with different types); names joined with `_` can collide.
10. C20: deleting `*/` from a description can create a new `*/`.
11. C27, C32: recursive input objects and import cycles exhaust the stack.
12. C33: an import line without a closing quote panics.
13. C36, C42, C52: with two or more threads the pool can stop before all directories are processed, silently
    and with exit code 0; zero threads compile nothing and exit with 0.
14. C41: with two or more threads a panic hangs the process.
15. C45: the plural of the warning count follows the error count.
16. C46: the custom scalar prefix of the configuration file is ignored unless the file also mentions
    `useCustomScalars`.
17. C51: a module name with a dot is used as a file name without `.ts`; a module starting with the prefix and
    `/` is written outside of the root directory.
{{MORE_FINDINGS}}
## 6. Wrong programs

For each entry of `seeded/LOG.jsonl` the model was changed in a scratch copy as a realistic bug would
change the code, and everything was rebuilt.  The entry says which theorems stopped proving.  A theorem
whose claim became false although it still proved was tightened (field `tightened`), or a new property was
added (C51, C52 were found that way).

## 7. Properties

"Model" names the definitions the theorems talk about, "specification" the file the claim is stated with,
"method" the main argument.  Proofs by induction are for all sizes, depths, schedules and step counts.

