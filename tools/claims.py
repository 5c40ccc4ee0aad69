c("C01", "partial", "C01_wrappers_partial C01_wide_partial C01_wide_is C01_wrappers_exact C01_wrappers_refuted",
  "C01_wide_partial holds also for inner types that have null in them, as for scalars written as any. All nestings of any depth except those with a nullable list of non-null lists, which the code always translates wrongly (C01_wrappers_exact, C01_wrappers_refuted).")
c("C36", "partial", "C36_complete_partial C36_exact C36_leftover C36_refuted",
  "Holds for trees without nested contents and every thread count >= 1; for two or more threads that condition is exact (C36_exact) and the loss is silent (C36_refuted). One thread: C38.")
c("C37", "proved", "C37_at_most_once", "All trees, thread counts and schedules.")
c("C38", "proved", "C38_complete C38_terminates", "All trees and schedules; termination for finite trees whose files do not panic.")
c("C39", "proved", "C39_aggregation", "")
c("C40", "proved", "C40_no_deadlock", "For finite trees on which no item panics; what happens after a panic is C41.")
c("C41", "partial", "C41_single_thread_partial C41_stuck C41_refuted",
  "One thread: the process ends with a panic. Two or more threads: after a panic no other worker can ever stop (C41_stuck), so the process hangs (C41_refuted).")
c("C42", "partial", "C42_positive_partial C42_zero C42_refuted",
  "Positive counts: with the restrictions of C36. Zero threads: exit code 0 with nothing compiled.")
c("C44", "proved", "C44_exit_code C44_success", "")
c("C45", "partial", "C45_report_partial C45_report_exact C45_report_refuted",
  "Everything except the plural of the warning count, which follows the error count (exact condition in C45_report_partial).")
c("C46", "partial", "C46_precedence C46_options C46_schema_path C46_beside C46_prefix_partial C46_prefix_exact C46_prefix_refuted",
  "Everything except that the prefix of the configuration file is ignored when that file does not mention useCustomScalars.")
c("C47", "proved", "C47_location C47_line_found", "")
c("C22", "proved", "C22_result C22_input C22_variable C22_variable_accepted", "")
c("C28", "proved", "C28_sources C28_outputs", "For directory listings with proper entry names without duplicates.")
c("C29", "proved", "C29_writes C29_no_outcome", "The only exception is an operating system failure in the middle of the write of a compiled document, stated in C29_writes.")
c("C30", "proved", "C30_resolution C30_once C30_used C30_texts", "")
c("C31", "proved", "C31_fragments C31_missing C31_defined", "When two reachable files define the same fragment name, one of them is available (which one depends on the hash order).")
c("C32", "partial", "C32_terminates_partial C32_ranked C32_exact C32_refuted", "Terminates exactly for files from which no infinite import chain starts; a file importing itself diverges.")
c("C33", "partial", "C33_no_panic_partial C33_exact C33_refuted", "Panics exactly when a leading import line of a reachable file lacks its closing quote.")
c("C34", "partial", "C34_unreadable C34_operation_partial C34_run C34_refuted C34_refuted_unparseable", "Unreadable imports: as stated. Imported operations: reported, but blamed on the compiled file even when another file imports them. Unparseable imports are not reported.")
c("C02", "proved", "C02_error C02_reported C02_loaded C02_typename", "List and non-null wrappers of field types: C01.")
c("C20", "partial", "C20_contained_partial C20_no_description C20_exact C20_refuted", "Holds for descriptions without a comment terminator; removing terminators can create a new one.")
c("C24", "proved", "C24_contents C24_produced C24_closed C24_order C24_loaded", "For schemas whose input object fields refer to input types; termination is C27.")
c("C25", "proved", "C25_enum C25_values C25_present", "")
c("C26", "partial", "C26_field_partial C26_exact C26_listing C26_refuted", "Listing as stated; types are faithful for at most one list level and always wrong beyond.")
c("C27", "partial", "C27_terminates_partial C27_exact C27_ranked C27_refuted", "Terminates exactly when no infinite chain of input objects starts at a requested type; a self-referential input object diverges.")
c("C50", "proved", "C50_unpacks_verified C50_rejects C50_success C50_exit C50_installs", "")
c("C43", "proved", "C43_outputs C43_workers C43_process C43_import_of_output", "The guard is also shown to be needed.  Work::run is one atomic step in the model.")
c("C49", "proved", "C49_end_to_end C49_flat", "For schemas whose input objects are consistent; also for any number of threads on trees without subdirectories.")
c("C06","partial","C06_reported C06_accepted C06_only C06_file C06_subscription_refuted","Every invalid selection written in a query, mutation or fragment document is described by an error (also at file level, where nothing is written), and every error is such a complaint. Not true for subscriptions, whose fields the code looks up in Query: refuted by an example.")
c("C08","partial","C08 C08_none C08_refuted C08_consistency_needed","The only internal errors are 'missing type' for a type condition or root type that does not exist and 'unexpected complex traversal' for a type condition that names an input object. The latter contradicts the claim: refuted by an example; proved otherwise.")
c("C09","proved","C09_errors C09_warnings","All positioned errors and warnings carry the position of the definition, of one of its variables or of one of its own selections.")
c("C10","proved","C10 C10_off","Exact list of deprecation warnings for queries, mutations and fragments; subscriptions are resolved against Query (see C06).")
c("C11","partial","C11 C11_kinds C11_contributes_nothing C11_refuted","Exact list of over-narrowing warnings; a vacuous spread leaves the collected state unchanged. A spread of an imported fragment whose type condition is not composite is dropped without a warning: refuted by an example.")
c("C12","proved","C12_exact C12_acyclic C12_cycle C12_self_spread","Terminates iff the nesting of selection sets through fields, inline fragments and spreads is well founded; acyclic spreads imply it; a cycle exhausts every depth bound.")
c("C05","partial","C05_partial C05_file C05_subscription_refuted C05_uninhabited_refuted","Valid documents compile, at the level of documents and of whole files, unless they are subscriptions (resolved against Query) or select an abstract type that has no object type (fails when rendering); both exclusions are shown necessary.")
c("C13","partial","C13_partial C13_subscription C13_refuted","Holds for queries, mutations and fragments; subscriptions are exported as QueryDocumentNode, proved for all of them.")
c("C14","proved","C14_accepted C14_rejected C14_written","Acceptance is exact, the first offending variable is reported, and the written type accepts exactly GraphQL's values.")
c("C51","partial","C51_globals_path_partial C51_dotted C51_absolute C51_refuted","Exact for relative modules whose last component has no extension; a dotted module name is used as the file name unchanged, and a remainder starting with / leaves the root directory (prefix @ with module @/globals writes /globals.ts): refuted by examples.")
c("C52","partial","C52_reported C52_success C52_refuted","Every processed directory that cannot be read is reported, under every schedule; with one thread or no subdirectories exit code 0 implies a readable tree. With more threads a lost directory is lost silently (see C36): refuted by a schedule.")
c("C15","proved","C15_documents C15_files","Field arguments, directives and variable default values of the document and of every imported fragment can be changed at will: same diagnostics, same written file.")
c("C17","proved","C17_closed","Every name used by a generated module is declared in it, imported from the globals module, built in, or a custom scalar's alias.")
c("C19","proved","C19_canonical","Members, union alternatives and the globals import of every generated module are in canonical sorted order, globals without repetition.")
c("C21","proved","C21_readonly","With the option every property of the result types is readonly; without it none is; no property of the variables type ever is, and nothing else changes.")
c("C03","partial","C03_partial C03_operation C03_refuted","At every depth the declaration for an object type lists exactly the selected response keys, for regular documents (object types that share a declaration select the same things); at the root without that guard. Refuted in general: the code shares one declaration between object types whose key sets agree but whose sub-selections differ.")
c("C16","partial","C16_partial C16_refuted","Every possible object type has exactly one alternative, named as documented, for regular documents. Refuted in general by the same sharing of declarations.")
c("C23","partial","C23_partial C23_only C23_refuted","Nothing but selected enums and variable types is imported, sorted and without repetition, unconditionally; in regular documents the import is exact. Refuted in general: an enum selected only for an object type that shares another's declaration is not imported.")
c("C35","partial","C35_run C35_partial C35_refuted C35_refuted_sharing","For trees in which every imported file is itself a source file, exit code 0 means that every document and every imported fragment is valid, and that every selection of a regular document is in its output, at every depth. Refuted without these conditions: an invalid fragment in a file that is not a source loses whole selections silently, and so does sharing of declarations.")
c("C18","partial","C18_partial C18_properties C18_labels C18_refuted C18_refuted_property","No type name is declared twice and no property listed twice, for documents that never ask for fields of differently named types under one key, and whose labels are kept apart (labels_apart): what can follow one object type or one key of a composite field in the names declared below it never makes it equal to a name below another one of the same place. C18_labels gives a condition on the labels alone: no label is another one of the same place followed by an underscore and more. Labels without underscores meet it. Refuted without these conditions: the names joined with '_' can run together, and two fields of different types can get the same key.")
c("C04","partial","C04_partial C04_refuted_sharing C04_refuted_skip","Responses are specified from the introspection result by GraphQL's own rules (field collection, covariant implementations, value completion), and every response is accepted by the generated type named after the operation, for regular documents without active @skip/@include, with labels kept apart (as in C18), no nullable list of non-null lists, and no leaf type named like a declaration. Refuted in general by shared declarations and by @skip/@include.")
c("C07","partial","C07_partial C07_collection C07_messages C07_file C07_refuted C07_messages_refuted C07_refuted_fragments","For consistent schemas and documents that never ask for fields of differently named types under one key, output and globals are the same for every iteration order at every site; for whole files also if no two reachable files define fragments of one name. For any document and schema at most the order of same-named properties varies, and messages agree up to the order of listed alternatives. Refuted without the conditions.")
c("C48","partial","C48_partial C48_collected C48_refuted","Repeating, reordering, splitting, wrapping, inlining a fragment, changing positions, arguments and directives: anywhere, any number of times, in either direction, gives the identical module, for documents in which the fields under one response key agree in type, documentation and deprecation. More generally any two documents that collect the same fields for every object type compile to the same module. Refuted without the condition: reordering changes which of two different descriptions is written.")
c("C53","partial","C53_partial C53_refuted C53_injected","For GraphQL names that are not reserved or predefined in TypeScript and descriptions without comment delimiters. Refuted otherwise: a query named any compiles to a text that is no module, and a description containing **//...//** adds a property to the declared type.")
c("C54","partial","C54_partial C54_injected C54_refuted","Under the same condition on the introspection result, including the names of enum values and input fields. Refuted otherwise: an enum named string gives an unreadable file, and a description can add a statement.")
c("C55","partial","C55_partial C55_refuted","For documents as in C18 whose imported types are not named graphqlDocument, like the node type, or like a declaration of the operation. Refuted otherwise: a query named Mood that selects the enum Mood binds Mood twice.")
c("C56","partial","C56_partial C56_default_node C56_refuted","Under the conditions of C49 and C53. Unless configured otherwise the node module is a path exported by the package. Refuted otherwise: a run over a query named any exits with 0 and writes a text that is no module.")
c("C57","proved","C57_exact C57_standard C57_same C57_rejected","")
c("C58","partial","C58_exact C58_rejected C58_file_or_args C58_camelcased C58_unknown_keys C58_camelcased_refuted","For every option except --schema-path, whose key is schemaFile (C58_file_or_args has it under that key). Refuted for --schema-path: the key schemaPath, like any unknown key, is ignored without a message.")
c("C59","partial","C59_answer C59_whole C59_accepted C59_partial C59_deep C59_never_deprecated C59_flags C59_hidden C59_refuted C59_refuted_deep","C59_answer says exactly what qlc reads of what is downloaded, C59_whole what is downloaded; servers that hide deprecated input fields are included. Equal runs for schemas without deprecated fields and with at most seven wrappers around a type. Refuted otherwise: deprecations are never asked for, so there are no warnings and no @deprecated; a type with more than seven list and non-null wrappers makes every run fail.")
c("C60","partial","C60_success C60_contents C60_failure C60_refuted","The first half and the last clause hold. Refuted: a failed download empties and deletes the previous file.")
c("C61","partial","C61_partial C61_exact C61_refuted","For queries. Refuted for mutations, subscriptions and fragments: their nodes also extend QueryDocumentNode, as its only property is optional, so that the result is BasicObject.")
c("C62","proved","C62_pool C62_process C62_one_worker C62_covers C62_once C62_outputs C62_condition_needed","C62_pool and C62_process for any number of workers if no file read is an output; C62_one_worker without that condition; C62_covers is the converse. C62_once and C62_outputs carry the completeness and determinism results over to interleaved operations. C62_condition_needed: without the condition an import of an output can be read half written.")
c("C63","proved","C63_distance C63_suggestions C63_field C63_fragment C63_symmetric","Distance counted in bytes. C63_field and C63_fragment at the level of files, with strsim's algorithm as the edit distance.")
c("C64","partial","C64_when C64_off C64_no_color C64_same_text C64_look C64_report C64_process C64_leak_refuted","All clauses hold; that no colour stays on afterwards holds if the texts printed contain no escape character. Refuted otherwise: file names and source lines are printed unfiltered.")
c("C65","proved","C65_exact C65_help C65_version C65_order C65_process C65_expressible","For arguments in UTF-8; after clap's published source. C65_exact in both directions.")
c("C66","partial","C66_ir C66_warning C66_others C66_document C66_distinct C66_names C66_file_partial C66_run_partial C66_refuted_globals C66_refuted_import","Two messages name the wrong file: a failure to write the file of global types, and the import of an operation. Distinctness for names without backquotes.")
c("C67","proved","C67_syntax C67_strings C67_utf8 C67_value C67_one_value C67_blanks C67_every C67_schema C67_schema_rejected C67_config C67_config_rejected C67_deep_refuted","After serde_json's published source. C67_deep_refuted shows the limit on nesting that C67_schema mentions: a text that says a schema and is rejected.")
c("C68","partial","C68_release C68_installs C68_refuses C68_platforms C68_channels C68_final C68_prerelease_refuted","Everything but the last clause is proved. Pre-release versions other than alpha and beta become full releases (C68_prerelease_refuted). Versions with a plus sign are not covered (npm drops what follows it).")
c("C69","proved","C69_text C69_one C69_layout C69_named C69_fit C69_values","About the model of graphql-parser 0.4.0 in Gql.v, written after that crate, which is not part of the repository. Which number texts and string escapes are accepted are parameters. C69_fit is C56_partial for runs with this reader, without its assumption on parsed names. C69_values: the tokens of any part of a text, such as the value of an argument, are what its written form reads back to.")
c("C70","partial","C70_parts C70_file_partial C70_lines C70_tame_partial C70_refuted_crlf C70_refuted_tab C70_refuted_import","C70_file_partial covers every message of compile_file that shows a line, for texts without tabs, carriage returns and byte order marks. C70_tame_partial covers all texts in which no carriage return follows a # on its line: the line is right, and the column too if there is no tab, carriage return or byte order mark left of the part on its line. Refuted otherwise: a comment that ends in carriage return and line feed counts as two lines, so all lines below it are reported one too low; a tab counts as eight columns; and for an imported operation the line shown under the name of the compiled file may be a line of another file.")
c("C71","proved","C71_file C71_run C71_tokens C71_text C71_refuted_indent","C71_text is for the reader of Gql.v, C71_run for any parser and texts it gives essentially the same document. Both compare runs with the same schedule and the same hash orders, which may depend on the keys of a map but not on its values (by_keys). C71_refuted_indent shows why the import lines must stay as they are: an indented import line is not seen, though it is a comment for GraphQL.")
c("C72","partial","C72_run_partial C72_text_partial","C72_text_partial starts from the words of the command line and the texts of the schema file and the documents, and ends at the texts written; C72_run_partial is the same for any parser. The conditions are those of C04 and C56: regular documents whose labels are kept apart (as in C18), no active @skip or @include, no nullable list of non-null lists in the schema, no name of a declaration equal to the name of a leaf type, self-contained imports, and node module and globals module of different names. Without them C04 has refutations. What custom scalars and the types of TypeScript accept is a parameter (surroundings).")
c("C73","partial","C73_exact_partial C73_run_partial C73_text_partial C73_lenient_refuted C73_number_refuted C73_nested_refuted","C73_text_partial starts from the words of the command line and the texts of the schema file and the documents; C73_run_partial is the same for any parser. Shown in both directions for requests that spell everything out: what the server takes is allowed, and what is allowed is taken. Conditions: no list of lists in the fields of input objects (C73_nested_refuted, C26), no declared name of the document equal to the name of an input type. C73_exact_partial is exact with scalars as the surroundings have them, null included where a scalar is mapped to any. For the others the surroundings give the TypeScript types of the scalars of the schema at least (loose) or at most (tight) the values that the server takes; for number and Int the second does not hold (C73_number_refuted). A server takes more than is spelled out: a variable with a default may be left out, one item may stand for a list; the type refuses these (C73_lenient_refuted).")
c("C74","partial","C74_partial C74_run_partial C74_text_partial C74_wide_partial C74_exact_partial C74_exact_text_partial C74_wide_is C74_tags_refuted C74_covariant_refuted C74_any_refuted","C74_partial is about one document, C74_run_partial about a run with any parser, C74_text_partial starts from the words of the command line and the texts of the files and is an equivalence. That responses are allowed needs the conditions of C72. That nothing else is allowed needs three more, each with a refutation: object types have the fields of their interfaces with the same types (C74_covariant_refuted), no object is asked for __typename under two keys (C74_tags_refuted), and the surroundings give the names of TypeScript and of custom scalars no more than the values of the scalars, which fails for any (C74_any_refuted). C74_wide_partial, C74_exact_partial and C74_exact_text_partial ask nothing of the surroundings: the type allows exactly the responses in which scalars have the values that the surroundings give them, so that with any for a scalar null may stand for it and nothing else is lost. C74_wide_is: without null these are the responses.")
c("C75","partial","C75_body C75_text C75_request C75_download C75_partial C75_hidden_refuted","C75_body is about JSON.stringify for every text. C75_text and C75_request: the literal query, and the body sent, ask for the introspection and nothing else, and are valid. C75_download says exactly what qlc reads afterwards. C75_partial: every run is the run with the complete schema, if there are no deprecations and at most seven wrappers (as C59). C75_hidden_refuted: the query does not pass includeDeprecated to inputFields, so a server of the later specification leaves deprecated input fields out, and the generated input type lacks them; no error is reported.")
c("C76","partial","C76_run C76_text_partial C76_exact_partial C76_fragment_refuted","C76_run says for every document what DataOf and VariablesOf give for the default export of its output: the types of the document for queries (and for subscriptions, which are written as queries, finding of C13), BasicObject for mutations and fragments (C61). C76_text_partial joins this with C73 and C74, with their guards: for a query a client gets exactly the possible responses as data and the spelled out requests as variables. C76_exact_partial is the same with scalars as the surroundings have them, whatever these are, as two equivalences. C76_fragment_refuted is a run with a fragment.")
c("C77","partial","C77_run C77_untouched C77_again_partial C77_text_partial C77_outputs C77_refuted","C77_run compares any two runs on the same sources, C77_untouched says what a run can change at all (both for every exit code). C77_again_partial is the run on what a run has left; its guard is that no source and no import is the file of globals, and that new files of the listing are not called like sources, which C77_outputs shows of the outputs. C77_text_partial is the same from texts, where the schema too is read from the disk left by the first run. Without the guard it is false: C77_refuted has a globals module called types.graphql, which the next run takes for a source. As C43 for the schedules: one worker, or no directory in a directory.")
c("C78","partial","C78_depth C78_can_exit_partial C78_exits_partial C78_exited C78_panics C78_refuted","C78_can_exit_partial and C78_exits_partial give the exit for runs whose sources are well formed; C78_exited is the converse, C78_panics says where a panic comes from. A run that nothing schedules again stays under way, so with several workers only the possibility of an exit is claimed, with one worker the exit itself. Sources and outputs are separate files (C43). Without the guard it is false: C78_refuted has a document that imports itself. The converse of the spread condition speaks of the positions that the selections reach (leads_below), the guard of the spreads alone.")
c("C79","partial","C79_accepts C79_exits_zero C79_rejects C79_exact_partial C79_text_partial C79_refuted C79_outside_refuted C79_twice_refuted","C79_accepts and C79_exits_zero say that valid projects exit with 0, without exclusions. The converse, C79_rejects, excludes subscriptions, different fragments of one name reaching one source, and imports from outside the root directory; C79_refuted, C79_twice_refuted and C79_outside_refuted show that each is needed. C79_exact_partial is the equivalence for one worker and C79_text_partial the same from the texts of the command line, the schema and the documents. Assumed: sources and outputs are separate files (C43), each composite type of a field has an object type, and paths agree (C07).")
c("C80","proved","C80_output C80_edit C80_blame","For one worker, or several over a flat tree, with sources and outputs separate files as in C43 (other runs may skip files, C36). C80_edit is about a run after edits; C80_blame says where a new error comes from.")
c("C81","proved","C81_loaded C81_module C81_accepts C81_outputs C81_text_partial","C81_refuted, C81_value_refuted and C81_member_refuted show what the conditions exclude: projects that are accepted though not valid, new enum values, new object types of an interface. C81_outputs is for one worker, or several over a flat tree. C81_text_partial is about two disks, from the texts of their files to the texts left there.")
c("C82","partial","C82_module_partial C82_run_partial C82_text_partial C82_refuted","Guards: as for C04, but only on the fragment and its own imports; of the document nothing but that no key of an object stands for two fields (which GraphQL demands). C82_refuted: object types that share a declaration of the fragment.")
c("C83","partial","C83_module_partial C83_run_partial C83_text_partial C83_refuted C83_refuted_tags","Guards: both documents regular, the names of leaf types not declared by either, labels of the fragment apart, and __typename under one key only in the document. No guard on directives, wrappers or custom scalars. C83_refuted: object types that share a declaration of the fragment but not of the query; C83_refuted_tags: two keys for __typename.")
c("C84","partial","C84_module_partial C84_renamed C84_recast C84_rewritten C84_composed C84_run_partial C84_text_partial C84_refuted","Guard: the fields an object type has under one key agree in type, description and deprecation, at every depth. The two runs of C84_run_partial and C84_text_partial have the same options for what is generated; root directory and import prefix may be others. C84_refuted: without it, moving a selection into a fragment changes the description that is written.")
c("C85","partial","C85_entries C85_paths C85_installed C85_refused C85_import C85_import_refuted","Everything but the last clause for modules compiled to CommonJS without esModuleInterop: there the import is undefined, although index.d.ts declares a string (C85_import_refuted).")
c("C86","partial","C86_run_partial C86_none C86_readonly C86_scalars C86_modules C86_text_partial","Assumes that the written files are apart from the files read (C35), that input types are declared consistently and, if the module of globals is renamed, that both files can be written; several threads need a flat tree. The message of why the module of globals could not be made is not compared: with several reasons, which one is told depends on the hash order.")
c("C87","partial","C87_printed C87_module C87_rejected C87_run_partial C87_text_partial","C87_module and C87_rejected are for all documents. For runs, C87_run_partial and C87_text_partial assume what C84 does (settled requests, outputs apart from sources; root directory and import prefix may be others), and that both exit with code 0 (for the exit codes see C93).")
c("C88","partial","C88_kept C88_module_partial C88_run_partial C88_text_partial C88_refuted C88_refuted_tags","Guards: both documents regular, __typename under one key only in the document that selects more, labels of the other apart, and the names of leaf types not declared by either. No guard on directives, arguments, variables or wrappers. C88_refuted: a selection that ends the sharing of a declaration; C88_refuted_tags: one that begins it, with two keys for __typename.")
c("C89","partial","C89_changed C89_module_partial C89_run_partial C89_text_partial C89_refuted C89_needs_fewer","Guards: those of C88, and no nullable list of non-null lists in either schema (C89_refuted, by C01). C89_needs_fewer: object types may not be added to interfaces or unions.")
c("C90","partial","C90_requests C90_run_partial C90_text_partial C90_refuted","Guards: those of C73, for both projects; nothing is asked of the surroundings, so that scalars mapped to any are covered. C90_refuted: a list of lists in an input object (C26) that need not be given any more. The second half of the run theorems says what breaks callers: a new variable that is required, a variable that is gone.")
c("C91","partial","C91_text_partial","Guards: those of C89 for what is answered and of C90 for what is asked for, queries only (for mutations and fragments the helpers give BasicObject, C76_fragment_refuted) and the node module of the package. The refutations are those of C89, C90 and C76.")
c("C92","partial","C92_loaded C92_unreadable C92_accepts C92_outputs_partial C92_exits_partial C92_text_partial C92_refuted","Guards: no name declared twice in the introspection result (C92_refuted: the last declaration counts); as in C81, fields under one response key agree in type, documentation and deprecation, and one worker or a flat tree. C92_accepts and C92_outputs_partial are for valid projects; C92_exits_partial is for all projects, one worker and the exclusions of C79. Messages are not compared.")
c("C93","partial","C93_valid C93_exits_partial C93_outputs_partial C93_text_partial C93_refuted","Guards: the new names of fragments are one to one and no two fragments of one name reach a source (C93_refuted: otherwise another fragment may be meant, and nothing is reported); C93_exits_partial has one worker and the exclusions of C79. C93_outputs_partial and C93_text_partial are for valid projects whose fields under one response key agree in type, documentation and deprecation, with one worker or a flat tree, and all operations named. Messages are not compared (they quote lines of the sources).")
c("C94","partial","C94_loaded C94_module_partial C94_accepts C94_exits_partial C94_outputs_partial C94_text_partial C94_refuted","Guards: names that can be declared and no description of either schema that ends its comment (C94_refuted: such a description declares a type, finding 10). C94_exits_partial has one worker and the exclusions of C79. C94_module_partial, C94_outputs_partial and C94_text_partial are for valid documents whose fields under one response key agree in type, documentation and deprecation, with one worker or a flat tree; the modules are compared as the statements they read as (only_reads), their comments are not. C94_text_partial leaves out the location of the schema file itself. Messages are not compared (deprecation warnings are C10's).")
c("C95","partial","C95_partial C95_run_partial C95_text_partial C95_refuted","Guards: regular documents (C95_refuted: one declaration for owner is shared although Cat, Dog and Eel select different things under it, so what is left after comparing with Dog lacks the property asked for, finding 1), no subscriptions, and for the written text a name that is not reserved. Narrowing is stated on values: of the values a union accepts, those whose tag is T are accepted by exactly the alternative that carries T.")
c("C96","partial","C96_valid C96_exits_partial C96_outputs_partial C96_text_partial C96_refuted","Guards: no two fragments of one name reach a source (C96_refuted: otherwise the order of import lines decides which is meant, and nothing is reported); C96_exits_partial has one worker and the exclusions of C79. C96_outputs_partial and C96_text_partial are for valid projects whose fields under one response key agree in type, documentation and deprecation, with one worker or a flat tree, and the same options for what is generated (same_output_options; the root directory and the prefix of import lines may be others, as in C96_nonvacuous). Messages are not compared (they name paths).")
c("C97","partial","C97_valid C97_outputs_partial C97_text_partial C97_refuted","Guards: no two fragments of one name reach a source (C97_refuted: the import that is left out may have brought the fragment that was taken, and nothing is reported). C97_outputs_partial and C97_text_partial are for valid projects whose fields under one response key agree in type, documentation and deprecation, with one worker or a flat tree, and the same options for what is generated (the root directory and the prefix of import lines may be others). Only one direction: import lines that are added may lead to missing files, operations or back. That what a document needs is still imported is asked for per source (needs_kept). Messages are not compared.")
c("C98","partial","C98_valid C98_in_place C98_outputs_partial C98_text_partial C98_refuted","C98_in_place has any documents, and no guard on fragments or fields: files are deleted that no source that stays reads, and nothing else is changed. In it the globals are compared if the smaller project compiles; that it does is in C98_outputs_partial. Guards of the others: no two fragments of one name reach a source (C98_refuted: the deleted file may have held the fragment that was taken, and nothing is reported). C98_outputs_partial and C98_text_partial are for valid projects whose fields under one response key agree in type, documentation and deprecation, with one worker or a flat tree, and the same options. The clause about the module of globals is for a remaining project that uses a global. What an earlier run left at the output of a deleted source is not the subject. Messages are not compared.")
c("C99","partial","C99_valid C99_in_place C99_outputs_partial C99_text_partial","C99_in_place has any documents, and no guard on fragments or fields: files are added to a project that compiled and the former ones stay where they are; the outputs of these are the same even if others fail. In it the globals are compared if the larger project compiles; that it does is in C99_outputs_partial. Guards of the others: no two fragments of one name reach a source of the larger project. C99_outputs_partial and C99_text_partial are for valid projects whose fields under one response key agree in type, documentation and deprecation (otherwise not even two runs on one project need agree, C04), with one worker or a flat tree, and the same options. The files that are added are valid on their own (valid_source of C79). The clause about the module of globals is for a former project that used a global. Messages are not compared.")
