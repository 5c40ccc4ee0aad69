MORE_FINDINGS = """18. C53, C54, C56: operations and enums may be named like reserved words or predefined types of TypeScript (`any`,
    `string`), and descriptions may contain `**//`: the text written is no module, or says something else.  The
    exit code is 0.
19. C55: an operation named like an enum it selects binds that name twice.
20. C58: the configuration file's key for `--schema-path` is `schemaFile`, not the camelcased `schemaPath`; unknown
    keys are ignored without a message.
21. C59: the introspection query of qlc-download-schema does not ask for `isDeprecated`, and asks for seven levels of
    `ofType` only.
22. C60: qlc-download-schema empties the target before the request and deletes it if the request fails.
23. C61: `DataOf` and `VariablesOf` try `QueryDocumentNode` first, which every document node extends.
24. C64: escape characters in file names, source lines and descriptions reach the terminal as they are, also with
    `--no-color`.
25. C66: if the file of global types cannot be written, the message names the root directory instead of the file; if an
    imported file is no fragment, the message says so about the importing file.
26. C68: a pre-release version that is neither alpha nor beta (`4.3.0-rc.1`) is published as a full release and as the
    latest on npm.
27. C70: in a file with lines ending in carriage return and line feed, every comment (hence every import line) counts as two
    lines, so messages show a wrong line, or `<<QLC unknown line>>`.
28. C70: a tab counts as eight columns, so the caret stands too far right.
29. C70: if an imported file imports an operation, the message names the compiled file with the number and text of a line of
    the imported one.
30. C71: an import line with a space before the `#` is not seen, and it ends the scan for import lines, so later ones are not
    seen either; the user gets "unknown spread fragment name" with the advice to import it.
31. C73: a variable with a default (`$n: Int! = 3`) may be left out of a request, but its property is required; a single item for
    a list and a number for an ID are refused as well.  A request with 1.5 for an Int type-checks and is refused by the server.
32. C74: `a: __typename b: __typename` on an interface allows objects with two different type names; a field selected on an
    interface has the type declared there, so null is allowed where no object type has it.
33. C75: the query of qlc-download-schema passes `includeDeprecated: true` to `fields` and `enumValues` but not to `inputFields`
    and `args`; servers that follow the specification after October 2021 then hide deprecated input fields, and the generated
    input types lack them without a message.
34. C77, C51: a globals module whose name ends in `.graphql` is written to a file of that name (no `.ts` is added when there is an
    extension), which the next run takes for a source: the first run exits with 0 and the second with 1, on the same sources.
35. C79: errors in an imported fragment are not reported where it is spread, but left to the compilation of its own file
    (ir.rs:767-768). A file outside the root directory is never compiled, so a document that spreads a fragment from there compiles
    although the fragment selects a field that does not exist; the field is missing in the types (`C79_outside_refuted`).
36. C85: index.d.ts declares `export default`, but index.js assigns the string to module.exports; compiled to CommonJS
    without esModuleInterop, the default import is undefined.

"""
h("C01", "`mb_actualize`, `mb_listize`, `ftype_of_json`, `prop_type_def`", "`SpecGql`, `SpecTs` (values of a type reference, of a read type expression)", "induction on the nesting; the builder's state is related to the part of the type already read; for inner types with null `builder_any` of `PromiseFacts`")
h("C02", "`load_schema`, `type_of_json`, `field_of_json`", "`SpecLoad`", "induction on the list of types and of fields")
h("C03", "`compile_file` down to `ts_collection`", "`SpecSel` (collected fields), `SpecMod`, `SpecReg`", "main chain (section 4); induction on the structure of the collection")
h("C04", "`compile_file` down to `ts_collection`", "`SpecResp` (responses), `SpecDecl`, `SpecTs`", "main chain; induction on the derivation that a response is valid")
h("C05", "`compile_definition`, `compile_ir`, `compile_file`", "`SpecSel` (validity)", "main chain; the depth bound is found by induction on validity")
h("C06", "`collect`, `compile_definition`, `compile_file`", "`SpecDiag` (own selections with their static types)", "relation `SelRun` realised by `collect` on every document, then induction on it")
h("C07", "`env_order` at every iteration", "`SpecFile`; equality of outputs", "traversals are equal as maps for all orders (`TravEq`, `CollectEq`); sorting canonicalises")
h("C08", "`compile_definition`", "`SpecLoad` (consistent schemas)", "invariant on traversals of arbitrary documents (`ShapeFacts`)")
h("C09", "`collect`, `compile_definition`", "`SpecDiag`", "induction on `SelRun`")
h("C10", "`insert_field`, `compile_definition`", "`SpecDiag`", "induction on `SelRun`; exact list")
h("C11", "`clone_for_type_spread`, `spread_into`", "`SpecDiag`, `SpecSel`", "induction on `SelRun`; exact list")
h("C12", "`collect` (depth bound)", "well-foundedness of nesting (`SpecDiag`)", "well-founded induction in one direction, descending chain in the other")
h("C13", "`docnode_name`, `compile_ir`, `op_type_name`", "`SpecFile`", "case analysis through the module tree")
h("C14", "`try_build_variable_ir`, `variable_line`, `variables_definition`", "`SpecVar`, `SpecGql`, `SpecTs`", "induction on the variables")
h("C15", "`compile_file`", "relation between documents that differ in arguments and directives only", "simulation by induction on the depth bound")
h("C16", "`ts_collection`, `smoosh`", "`SpecDecl`, `SpecReg`", "main chain; exactly one alternative by distinctness of type names")
h("C17", "`compile_ir`", "`SpecFile` (names used, declared, imported)", "relational description of the renderer (`PlanFacts`), induction")
h("C18", "`compile_ir`, `ts_collection`", "`SpecFile`", "name mangling is injective on names without `_`; induction on paths")
h("C19", "`ts_collection`, `compile_imports`", "`SpecFile` (sortedness by byte order)", "sorting lemma and `PlanFacts`")
h("C20", "`compile_documentation`, `replace`", "`SpecDoc` (how a block comment is read)", "induction on the text")
h("C21", "`single_prop_type_def`, `prop_line`", "`SpecFile`", "`PlanFacts`, induction on declarations")
h("C22", "`scalar_ts`, `compile_scalar`, `variable_type_name`", "table in `PropC22`", "case analysis")
h("C23", "`prepare`, `compile_imports`", "`SpecSel`, `SpecVar`", "main chain; both inclusions")
h("C24", "`compile_globals`, `add_sub_inputs`", "`SpecGlobal` (reachability)", "induction on the depth bound; inclusion in both directions")
h("C25", "`enum_def`", "`SpecGlobal`", "induction on the values")
h("C26", "`input_def`, `input_field_type`", "`SpecGlobal`, `SpecGql`, `SpecTs`", "induction on modifiers")
h("C27", "`add_sub_inputs` (depth bound)", "well-foundedness of input object references", "well-founded induction; descending chain")
h("C28", "`scan_entries`, `with_extension`, `path_join`", "`SpecPath`, `SpecTree`", "injectivity lemmas on paths")
h("C29", "`compile_file`", "`SpecFs`", "case analysis by stages (`GraphqlFacts`)")
h("C30", "`import_target`", "`SpecImport`", "characterisation of `strip_prefix`, `path_join`")
h("C31", "`imports`, `add_imports`, `parse_foreign`", "`SpecImport` (reachability)", "work-list invariant")
h("C32", "`add_imports` (depth bound)", "`SpecImport`", "well-founded induction; descending chain")
h("C33", "`import_start`, `slice`", "`SpecImport`", "exact condition by induction on reachability")
h("C34", "`add_imports`, `foreign_step`", "`SpecImport`", "case analysis on `ImportProps` stages")
h("C35", "`qlc`", "`SpecSel`, `SpecTree`", "composition of C44, C06 and C03")
h("C36", "`Pool.step` with `run_work`", "`SpecTree`, `SpecPool`", "accounting invariant over steps; explicit schedules for the converse")
h("C37", "`Pool.step`", "`SpecPool` (positions)", "invariant: each position is in one place")
h("C38", "`Pool.step`", "`SpecPool`", "invariant for one worker; measure for termination")
h("C39", "`aggregate`", "multisets of messages and sets of names", "invariant on logs")
h("C40", "`Pool.step`", "`SpecPool`", "strategy that ends every reachable state")
h("C41", "`Pool.step`, `process_end`", "`SpecPool`", "invariant: counters can no longer reach the number of threads")
h("C42", "`qlc`", "`SpecTree`", "from C36; direct computation for zero threads")
h("C43", "`Pool.step`, `run_work`", "`SpecFs`", "effects of different files commute; induction on runs")
h("C44", "`exit_report`, `qlc`", "`SpecCli`", "case analysis")
h("C45", "`exit_report`", "`SpecCli`", "computation on lists")
h("C46", "`merge_config`, `load_config`", "`SpecCli`", "case analysis")
h("C47", "`loc_position`, `fmt_line`, `lines`", "`SpecCli` (lines of a text)", "induction on the text")
h("C48", "`compile_definition`, `compile_ir`", "`Rewrite` (rewriting relation)", "rewriting preserves collected fields; documents collecting the same compile alike")
h("C49", "`qlc`", "`SpecTree`, `SpecFs`", "composition of C38, C29, C43, C24")
h("C50", "`Npm.install`", "statements over traces of actions", "case analysis, induction on redirects")
h("C51", "`globals_path`", "`SpecPath`", "path lemmas")
h("C52", "`run_work`, `qlc`", "`SpecTree`", "composition of C36/C38 and C39")
h("C53", "`compile_definition`, `compile_ir` to the text", "`SpecRead` (reader for modules), `SpecName` (usable names)", "the text of a module tree has that tree as its only reading (`ReadFacts`); names come from document and introspection result")
h("C54", "`compile_globals`, `load_schema`", "`SpecStmt`, `SpecGlobal`, `SpecName`", "as C53; composed with C24-C26 and C02")
h("C55", "`compile_ir`", "`SpecMod`, `SpecSel`", "from C18, C23 and C53; declared names start with the operation's name")
h("C56", "`qlc`, `Package`", "`SpecTree`, `SpecMod`, `SpecStmt`", "composition of C49, C53, C54, C17 and C13")
h("C57", "`d_schema`, `schema_from`, `qlc`", "`SpecJson` (what a JSON value says)", "both directions by induction on JSON values; invariance by induction on the relation of similar values")
h("C58", "`d_config`, `load_config`, `merge_config`, `qlc`", "`SpecJson`, option names in `PropC58`", "decoding lemma, case analysis on the options")
h("C59", "`answer`, `introspection_query`, `schema_from`, `qlc`", "`SpecDownload`, `SpecJson`", "execution of the query computed by induction on levels and lists; loading is insensitive to what is missing")
h("C60", "`download_schema`", "`PropC60`", "case analysis")
h("C62", "`Fine` (programs of single operations, `fstep`, `fine_qlc`)", "`grain_ok`, `same_end` in `PropC62`; the runs of `Pool` and `Main`", "simulation: an item takes effect in the coarse pool at its last operation; until then its remaining program, run alone, gives the result of the whole item; completeness by replaying recorded results in the coarse pool")
h("C61", "`Nodes`", "equations in `PropC61`", "case analysis")
h("C63", "`Strsim` (table, loops, hash map), `similar_help`, `compile_file`", "`SpecEdit` (single changes of a word)", "alignments with crossing pairs cost at most one more after a single change (`EditFacts`); loop invariants of the table (`StrsimFacts`); composed with C06")
h("C64", "`Colour`, `exit_report`, `qlc`", "`SpecTerm` (a terminal), `SpecLook` (pieces with pens)", "painting is invisible to the terminal's state machine up to pens (`ScreenFacts`, `LookFacts`)")
h("C65", "`Args` (words, pending values, found arguments), `qlc_command`", "`SpecArgs` (items and their spellings, numerals)", "each spelled item is one step of the parser; conversely strong induction on the words left")
h("C66", "the message constructors of `Cli`, `Graphql`, `Main`; `compile_file`, `qlc`", "`SpecMsg` (catalogue of problems with severity, sentence and advice; causes)", "splitting at backquotes inverts the weaving of words and names; pairs of problems by cases; the report through the pool's log")
h("C67", "`Json` (a transducer of characters, a parser with a stack, escapes, UTF-8), `Decode`, `qlc`", "`SpecJtext` (grammar of RFC 8259, Unicode encodings, what bodies of strings spell), `SpecJson`", "parser: tokens consumed so far as an invariant; transducer: soundness for all states by induction on the text, completeness by mutual induction on the grammar; arithmetic on code points; composed with C57 and C58")
h("C68", "`Release` (shell scripts: sed, grep, listing), `Npm`, `Json`", "inside `PropC68`: characters of versions and hashes, members of JSON objects, machines, a server of release files", "replacement of placeholders piece by piece; lines that grep matches; the filled template parsed by the model of C67, composed with C50")
h("C69", "`Gql` (tokenizer and parser of graphql-parser 0.4.0), `Graphql`", "`SpecGtext`: ignored text, tokens as they may be written, grammar as relations between tokens and parts, positions", "recursive descent sound and complete for the grammar by induction on fuel, with what may follow each part; tokenizer against the relations by induction on the text; mutual induction for layout and names")
h("C70", "`Gql`, `Graphql`, `Cli`", "`SpecGpos`: where a word stands in a text (lines and characters before it), the word of each part of a document, when a shown location points at a word", "positions of tokens against the text before them by induction on the tokens; each part has a token at its position by mutual induction on the grammar; lines of C47; for texts with tabs and carriage returns (`GposMore`) the counted position agrees with the true one in its line, and in its column where the end of what precedes is plain; positions of diagnostics by C09; import lines by the facts behind C10")
h("C71", "`Graphql`, `Ir`, `Pool`, `Main`, `Gql`", "`SpecLayout`: a document without positions, arguments, directives and defaults; the import lines of a text; texts, messages, effects on the file system and process ends that differ in layout only", "simulation of collection and compilation on documents with equal essence; the import scan depends on the import lines only; hash orders via a zipped map; lock-step simulation of the worker pool; C69_layout for texts with the same tokens")
h("C72", "everything from `Args` and `Json` through `Gql`, `Main`, `Pool`, `Ir`, `Codegen`, `Global` to the texts", "`SpecLink`: the values of a type name in a module together with the globals module it imports from (a name means what its own module declares, else what is imported, else what the surroundings say); `SpecResp` for responses, `SpecArgs`, `SpecJtext`, `SpecGtext`, `SpecRead` for the texts", "C65, C67 and C69 lead from the texts to a run; C49 and C56 give the texts of the run and their reading; C04 gives acceptance over the declarations of one module; `LinkData` replaces its assumption on enums by the declarations of the globals file; `LinkExt` moves between lists of fragments with the same members")
h("C73", "as C72, with `Variable`, `Global` and `ts_variables`", "`SpecInput`: input coercion of scalars, enums, input objects, lists and variables by a server, strict or lenient, from the introspection result; `wide_request` for scalars with null among their values; the values a module allows without undeclared properties", "C14 and C22 give the properties of the variables type, C54 and C56 the globals file; `RequestFacts` relates the values allowed for a type of the globals with the input values of the type, both directions by induction on the depth; the globals file is closed under references of input objects (C24, C56)")
h("C74", "as C72", "`SpecExact`: values without repeated keys, exact implementation of interfaces, `__typename` under one key, tight surroundings; `SpecInput`'s values allowed without undeclared properties; `SpecResp`'s responses; `SpecWide`: responses with scalars as the surroundings have them", "`ExactFacts`: with the description `des` of the declarations (DescFacts) by the selections, in one direction as C04 and in the other by induction on the depth: the object type is the one named under `__typename`, or any of those of the declaration; the wrapper translation is an equivalence (WrapFacts). `WideFacts`: the same when null is among the values of scalars. `LinkExact`: names from elsewhere mean the same for the module alone and linked with the globals")
h("C75", "`introspection_text`, `js_quote`, `request_body`, `download_schema`, `answer`, `schema_of_text`, `qlc`", "`SpecDownload`: `asked` (documents on the introspection schema, fragments expanded), `text_asks`, `responds`; `SpecGtext`, `SpecJtext`", "`AskFacts`: quoting is read back for every text, what a document asks for is unique; the literal query is parsed by evaluation (C69) and checked (`ask`); then C59, C60, C67")
h("C76", "`qlc_command`, `tsfile_items`, `node`, `data_of`, `variables_of`, `node_exports`, `package_paths`", "`SpecClient`: `default_export`, `client` (the helper applied to the type of the default export, through the imports of the module and the exports of the package); `SpecLink`, `SpecExact`, `SpecInput`", "the written file's node and arguments are those of C13 (`written_as`), the helper types are those of C61; then C73 and C74, whose modules are the same because a text reads as one module only")
h("C77", "`qlc_command`, `run_work`, `entry_work`, `compile_file`, `finish_work`, `compile_globals_file`", "`SpecAgain`: `relisted` (the same entries in any order and files not called like sources), `same_reads`, `same_changes`", "the tree of a relisted directory has the same items (`tree_again`), each of them once in both runs (C32, C43), and their results are the same as their reads are; aggregates are compared up to order, and C35 orders the file of globals")
h("C78", "`qlc`, `run_work`, `compile_file`, `add_imports`, `finish_work`, `compile_globals_file`, the pool", "`SpecEnd`: `well_formed`, `sound_source`, `spread_by`", "every fuelled function is monotone in its fuel (`qlc_mono`); per file C31, C12 and C27 give a depth that suffices, a finite tree has a greatest one; the run is then the run of a runner that always ends (`tot_steps`), so C38 and C36 apply; panics are traced to the step of the worker that panicked (`panicked_ran`)")
h("C79", "`qlc`, `run_work`, `compile_file`, `compile_document`, `compile_ir`, `finish_work`", "`SpecProject`: `valid_source`, `valid_project`", "forwards: C31, C07, C05, C23 and C12 for each file give a compiled file with warnings only, C27 and C10 the globals, C78 the end of the run; backwards: the stages of each compiled file give the parts of `valid_at`, and the selections of imported fragments follow by induction along the imports, each being a source of its own (`source_sels`)")
h("C80", "`qlc`, `compile_file`, `add_imports`, the pool", "`SpecFs`: `reads`, `is_source`, `out_loc`, `separate`", "compiling a file in two file systems that agree on what it reads gives the same result (`compile_agree`), the pool leaves at each output what compiling its source alone would (`run_outputs`), and the messages are those of the files (`log_results`)")
h("C81", "`load_schema`, `compile_definition`, `compile_ir`, the globals file, `qlc`", "`SpecGrow`: `added`, `grown`", "validity, possible types, occurrences and the collected selection are kept in both directions on what a document names (`coll_grown`), so the intermediate form is the same by uniqueness (`coll_det`); the names of the globals file lead to the same definitions (`file_grown`); the runs by C49 and C79")
h("C82", "`compile_definition`, `compile_ir`, `qlc`", "`SpecPart`: `applied`, `spread_at`, `unmixed`, beside `SpecResp`", "what the fragment collects for an object is collected by the document that spreads it (`applied_collects`), under each key of the same field (`unmixed`), so the value has the fragment's property with a type the value has; at the next depth the fragment's selections are among the document's again (`object_shown`, along `des` as C04). Imports of the fragment file are imports of the document (`frags_through`); the two modules are linked as in C72 (`run_module`)")
h("C83", "`compile_definition`, `compile_ir`, `qlc`", "`SpecAssign`: `at_path`, `spread_for`, `spread_along`; `tagged_once` of `SpecExact`", "a value of the document's type has the members of one of the object types it stands for, told by the value of `__typename` if there is one (`one_type`); for that object type the fragment selects some of the same fields, so the declaration the fragment has for it has members of the same types, or of types the induction relates (`object_sub`, on both `des` at once); along the path by `path_sub`. The modules are linked both ways (`linked_accepts`, `linked_back`)")
h("C84", "`compile_definition`, `compile_ir`, `qlc`", "`SpecRecast`: `recast`, `same_head`, `collects_same`, `rename_sel`", "the intermediate representation is determined by what is collected, with two maps of fragments (`coll_det2`); renaming and inlining keep what is collected (`occ_recast`, `recast_collects`), by induction on the finite depth of `settled`; changes compose (`collects_trans`); the runs by `run_compiled` for both, the globals by their sorted list of definitions")
h("C85", "`main_export`, `bin_path`, `node_join`, `node_resolve`, `bin_link`, `perform`, `install`, `release`", "`PropC85`: `directory`, `plain_name`; paths written out in the statements", "joining pieces to a directory of any depth (`normal_join`, by induction on its names), the published text through C68, the actions of an installation by their shape (`install_acts`)")
h("C86", "`qlc`, `qlc_command`, `compile`, `render`, `compile_globals_file`", "`SpecSetting`: `differs`, `option_place`, `changed_alike`, `told_alike`", "the compiler and the printer related function by function for two configurations (`SettingFacts`), warnings of deprecations filtered out of the messages; then file by file over what the pool completed (`SettingRun`)")
h("C87", "`compile_definition`, `compile_ir`, `qlc`, `qlc_command`", "`SpecRename`: `fill`, `under_name`; `same_head` and `collects_same` of C84", "the printer by induction on the intermediate representation, with the path of a declaration as a text with places for the name (`render_uniform`); C84_module_partial for what else may differ between two projects")
h("C88", "`compile_definition`, `compile_ir`, `qlc`, `qlc_command`", "`SpecMore`: `kept`, `frags_kept`, `selects_more`; values of types as in C04", "by induction on the depth of acceptance, between the descriptions (`des`) of two modules: an accepted object has the members of one object type (`one_type`, of C83), whose keys the other declaration has too (`object_narrow`)")
h("C89", "`load_schema`, `ftype_of_json`, `compile_definition`, `compile_ir`, `qlc`, `qlc_command`", "`SpecPromise`: `stricter`, `answers_more`, `leaves_kept`, `promises_more`; `kept` of C88", "the wrappers of a loaded type as sets of values over any inner set (`builder_any`), monotone in non-null marks (`stricter_values`); otherwise as C88, between the descriptions of modules from two schemas (`object_answers`); from changes of a schema by induction on the selections (`changed_answers`)")
h("C90", "`load_schema`, `try_build_variable_ir`, `compile_ir`, `compile_globals`, `qlc`, `qlc_command`", "`SpecRequire`: `requires_less`, `asks_less`, `meets`; `request`, `wide_request` and `module_allows` of C73", "by C73 in both projects, with scalars taken as the surroundings have them (`surrounding`), from the monotonicity of requests (`C90_requests`, by induction on the depth of values)")
h("C91", "`qlc_command`, `node_exports`, `data_of`, `variables_of`", "`SpecClient`: `client`; `answers_more` of C89; `requires_less`, `asks_less` of C90", "from `C76_run` in both projects (which name the helpers give) with `C89_text_partial` and `C90_text_partial`, the modules being the same since texts read as one module only")
h("C92", "`load_schema`, `qlc`, `compile_definition`, `compile_ir`, the globals file", "`SpecRearrange`: `rearranged`, `declared_once`; `grown` of C81", "a rearranged introspection result is one with nothing added, in both directions (`rearranged_added`), so C81 applies both ways; what C79 and C81 ask of the second schema follows from the first (`both_consistent` and following); exit codes by `C79_exact_partial`")
h("C93", "`qlc`, `add_imports`, `compile_definition`, `compile_ir`, the globals file", "`SpecRefactor`: `one_to_one`, `respread`, `retitled`, `retitled_files`; `valid_project` of C79, `fill` of C87", "files with the same import lines reach the same files (`reach_matched`); the fragments brought under the new names are built from those under the old ones (`new_fragments`), so that selections are recast in the sense of C84 (`respread_recasts`) and valid sources stay valid (`valid_at_matched`); the relation is symmetric (`files_flip`). Exit codes by C79, outputs by C87")
h("C94", "`load_schema`, `qlc`, `compile_definition`, `compile_ir`, the globals file", "`SpecDocs`: `redescribed`; `valid_project` of C79, `only_reads` of C56, `reads_alike`", "`nodoc` deletes the documentation of a read schema; the schemas of both results are equal under it (`redescribed_load`), and validity, consistency and what is collected do not depend on what it deletes (`nodoc_valid`, `nodoc_collected` ...). The declarations of a document are the same but for their comments (`modules_alike`, through the determinism of settled collections), those of a global type too (`says_alike`); both texts are read by C53 and C54. Exit codes by C79, the step to texts by C77")
h("C95", "`compile_definition`, `compile_ir`; `qlc` for the outputs of runs", "`SpecNarrow`: `tagged_by`, `literals_at`, `narrows`, on the declarations the text reads as", "From the exact cover of C16 (`covered_narrows`): the literal union of a tag key denotes exactly the names of the alternative, so the alternatives partition the possible types and an accepted object has its tag in one of them. Runs by `run_compiled`, texts as in C72. The refutation inverts `narrows` down to the shared owner")
h("C96", "`qlc`, `add_imports`, `compile_definition`, `compile_ir`, the globals file", "`SpecMove`: `moved_file`, `moved_files`, `moved_project`; `valid_project` of C79", "a relation of old and new paths, preserved along import lines both ways, so the same files are reached (`reach_moved`) and the same fragments brought (`moved_fragments`); valid sources stay valid (`valid_at_moved`), and the relation is symmetric. Exit codes by C79, outputs as in C84, for configurations that differ in root directory and import prefix (the printers do not look at these: `even_ir` of `PlaceFacts`)")
h("C97", "`qlc`, `add_imports`, `compile_definition`, `compile_ir`, the globals file", "`SpecTrim`: `needs`, `needs_kept`, `trimmed_project`; `valid_project` of C79", "what is reached now was reached before (`reach_trimmed`); the fragments now brought are a finite map by C31 (`brought_map`), which agrees with the former one on what is needed (`needed_recasts`, by induction on valid selections); the rest as in C96")
h("C98", "`qlc`, `add_imports`, `compile_definition`, `compile_ir`, the globals file", "`SpecPrune`: `pruned_project`, `part_of`; `needs_kept` of C97; `valid_project` of C79", "each source that stays as in C97; the globals used by what stays were used before, and of two sorted lists without repetitions the included one is a part of the other (`sorted_part`, `part_images`); in place by C80 (`compile_agree`)")
h("C99", "`qlc`, `add_imports`, `compile_definition`, `compile_ir`, the globals file", "`SpecAdd`: `enlarged_project`; `moved_files` of C96, `part_of` of C98, `valid_source` of C79", "each former source as in C96; the globals as in C98, the other way round; in place by C80 (`compile_agree`)")
