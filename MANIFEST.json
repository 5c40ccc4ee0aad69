{
 "claims": [
  {
   "property": "C01",
   "status": "partial",
   "theorems": [
    "C01_wrappers_partial",
    "C01_wide_partial",
    "C01_wide_is",
    "C01_wrappers_exact",
    "C01_wrappers_refuted"
   ],
   "note": "C01_wide_partial holds also for inner types that have null in them, as for scalars written as any. All nestings of any depth except those with a nullable list of non-null lists, which the code always translates wrongly (C01_wrappers_exact, C01_wrappers_refuted)."
  },
  {
   "property": "C36",
   "status": "partial",
   "theorems": [
    "C36_complete_partial",
    "C36_exact",
    "C36_leftover",
    "C36_refuted"
   ],
   "note": "Holds for trees without nested contents and every thread count >= 1; for two or more threads that condition is exact (C36_exact) and the loss is silent (C36_refuted). One thread: C38."
  },
  {
   "property": "C37",
   "status": "proved",
   "theorems": [
    "C37_at_most_once"
   ],
   "note": "All trees, thread counts and schedules."
  },
  {
   "property": "C38",
   "status": "proved",
   "theorems": [
    "C38_complete",
    "C38_terminates"
   ],
   "note": "All trees and schedules; termination for finite trees whose files do not panic."
  },
  {
   "property": "C39",
   "status": "proved",
   "theorems": [
    "C39_aggregation"
   ],
   "note": ""
  },
  {
   "property": "C40",
   "status": "proved",
   "theorems": [
    "C40_no_deadlock"
   ],
   "note": "For finite trees on which no item panics; what happens after a panic is C41."
  },
  {
   "property": "C41",
   "status": "partial",
   "theorems": [
    "C41_single_thread_partial",
    "C41_stuck",
    "C41_refuted"
   ],
   "note": "One thread: the process ends with a panic. Two or more threads: after a panic no other worker can ever stop (C41_stuck), so the process hangs (C41_refuted)."
  },
  {
   "property": "C42",
   "status": "partial",
   "theorems": [
    "C42_positive_partial",
    "C42_zero",
    "C42_refuted"
   ],
   "note": "Positive counts: with the restrictions of C36. Zero threads: exit code 0 with nothing compiled."
  },
  {
   "property": "C44",
   "status": "proved",
   "theorems": [
    "C44_exit_code",
    "C44_success"
   ],
   "note": ""
  },
  {
   "property": "C45",
   "status": "partial",
   "theorems": [
    "C45_report_partial",
    "C45_report_exact",
    "C45_report_refuted"
   ],
   "note": "Everything except the plural of the warning count, which follows the error count (exact condition in C45_report_partial)."
  },
  {
   "property": "C46",
   "status": "partial",
   "theorems": [
    "C46_precedence",
    "C46_options",
    "C46_schema_path",
    "C46_beside",
    "C46_prefix_partial",
    "C46_prefix_exact",
    "C46_prefix_refuted"
   ],
   "note": "Everything except that the prefix of the configuration file is ignored when that file does not mention useCustomScalars."
  },
  {
   "property": "C47",
   "status": "proved",
   "theorems": [
    "C47_location",
    "C47_line_found"
   ],
   "note": ""
  },
  {
   "property": "C22",
   "status": "proved",
   "theorems": [
    "C22_result",
    "C22_input",
    "C22_variable",
    "C22_variable_accepted"
   ],
   "note": ""
  },
  {
   "property": "C28",
   "status": "proved",
   "theorems": [
    "C28_sources",
    "C28_outputs"
   ],
   "note": "For directory listings with proper entry names without duplicates."
  },
  {
   "property": "C29",
   "status": "proved",
   "theorems": [
    "C29_writes",
    "C29_no_outcome"
   ],
   "note": "The only exception is an operating system failure in the middle of the write of a compiled document, stated in C29_writes."
  },
  {
   "property": "C30",
   "status": "proved",
   "theorems": [
    "C30_resolution",
    "C30_once",
    "C30_used",
    "C30_texts"
   ],
   "note": ""
  },
  {
   "property": "C31",
   "status": "proved",
   "theorems": [
    "C31_fragments",
    "C31_missing",
    "C31_defined"
   ],
   "note": "When two reachable files define the same fragment name, one of them is available (which one depends on the hash order)."
  },
  {
   "property": "C32",
   "status": "partial",
   "theorems": [
    "C32_terminates_partial",
    "C32_ranked",
    "C32_exact",
    "C32_refuted"
   ],
   "note": "Terminates exactly for files from which no infinite import chain starts; a file importing itself diverges."
  },
  {
   "property": "C33",
   "status": "partial",
   "theorems": [
    "C33_no_panic_partial",
    "C33_exact",
    "C33_refuted"
   ],
   "note": "Panics exactly when a leading import line of a reachable file lacks its closing quote."
  },
  {
   "property": "C34",
   "status": "partial",
   "theorems": [
    "C34_unreadable",
    "C34_operation_partial",
    "C34_run",
    "C34_refuted",
    "C34_refuted_unparseable"
   ],
   "note": "Unreadable imports: as stated. Imported operations: reported, but blamed on the compiled file even when another file imports them. Unparseable imports are not reported."
  },
  {
   "property": "C02",
   "status": "proved",
   "theorems": [
    "C02_error",
    "C02_reported",
    "C02_loaded",
    "C02_typename"
   ],
   "note": "List and non-null wrappers of field types: C01."
  },
  {
   "property": "C20",
   "status": "partial",
   "theorems": [
    "C20_contained_partial",
    "C20_no_description",
    "C20_exact",
    "C20_refuted"
   ],
   "note": "Holds for descriptions without a comment terminator; removing terminators can create a new one."
  },
  {
   "property": "C24",
   "status": "proved",
   "theorems": [
    "C24_contents",
    "C24_produced",
    "C24_closed",
    "C24_order",
    "C24_loaded"
   ],
   "note": "For schemas whose input object fields refer to input types; termination is C27."
  },
  {
   "property": "C25",
   "status": "proved",
   "theorems": [
    "C25_enum",
    "C25_values",
    "C25_present"
   ],
   "note": ""
  },
  {
   "property": "C26",
   "status": "partial",
   "theorems": [
    "C26_field_partial",
    "C26_exact",
    "C26_listing",
    "C26_refuted"
   ],
   "note": "Listing as stated; types are faithful for at most one list level and always wrong beyond."
  },
  {
   "property": "C27",
   "status": "partial",
   "theorems": [
    "C27_terminates_partial",
    "C27_exact",
    "C27_ranked",
    "C27_refuted"
   ],
   "note": "Terminates exactly when no infinite chain of input objects starts at a requested type; a self-referential input object diverges."
  },
  {
   "property": "C50",
   "status": "proved",
   "theorems": [
    "C50_unpacks_verified",
    "C50_rejects",
    "C50_success",
    "C50_exit",
    "C50_installs"
   ],
   "note": ""
  },
  {
   "property": "C43",
   "status": "proved",
   "theorems": [
    "C43_outputs",
    "C43_workers",
    "C43_process",
    "C43_import_of_output"
   ],
   "note": "The guard is also shown to be needed.  Work::run is one atomic step in the model."
  },
  {
   "property": "C49",
   "status": "proved",
   "theorems": [
    "C49_end_to_end",
    "C49_flat"
   ],
   "note": "For schemas whose input objects are consistent; also for any number of threads on trees without subdirectories."
  },
  {
   "property": "C06",
   "status": "partial",
   "theorems": [
    "C06_reported",
    "C06_accepted",
    "C06_only",
    "C06_file",
    "C06_subscription_refuted"
   ],
   "note": "Every invalid selection written in a query, mutation or fragment document is described by an error (also at file level, where nothing is written), and every error is such a complaint. Not true for subscriptions, whose fields the code looks up in Query: refuted by an example."
  },
  {
   "property": "C08",
   "status": "partial",
   "theorems": [
    "C08",
    "C08_none",
    "C08_refuted",
    "C08_consistency_needed"
   ],
   "note": "The only internal errors are 'missing type' for a type condition or root type that does not exist and 'unexpected complex traversal' for a type condition that names an input object. The latter contradicts the claim: refuted by an example; proved otherwise."
  },
  {
   "property": "C09",
   "status": "proved",
   "theorems": [
    "C09_errors",
    "C09_warnings"
   ],
   "note": "All positioned errors and warnings carry the position of the definition, of one of its variables or of one of its own selections."
  },
  {
   "property": "C10",
   "status": "proved",
   "theorems": [
    "C10",
    "C10_off"
   ],
   "note": "Exact list of deprecation warnings for queries, mutations and fragments; subscriptions are resolved against Query (see C06)."
  },
  {
   "property": "C11",
   "status": "partial",
   "theorems": [
    "C11",
    "C11_kinds",
    "C11_contributes_nothing",
    "C11_refuted"
   ],
   "note": "Exact list of over-narrowing warnings; a vacuous spread leaves the collected state unchanged. A spread of an imported fragment whose type condition is not composite is dropped without a warning: refuted by an example."
  },
  {
   "property": "C12",
   "status": "proved",
   "theorems": [
    "C12_exact",
    "C12_acyclic",
    "C12_cycle",
    "C12_self_spread"
   ],
   "note": "Terminates iff the nesting of selection sets through fields, inline fragments and spreads is well founded; acyclic spreads imply it; a cycle exhausts every depth bound."
  },
  {
   "property": "C05",
   "status": "partial",
   "theorems": [
    "C05_partial",
    "C05_file",
    "C05_subscription_refuted",
    "C05_uninhabited_refuted"
   ],
   "note": "Valid documents compile, at the level of documents and of whole files, unless they are subscriptions (resolved against Query) or select an abstract type that has no object type (fails when rendering); both exclusions are shown necessary."
  },
  {
   "property": "C13",
   "status": "partial",
   "theorems": [
    "C13_partial",
    "C13_subscription",
    "C13_refuted"
   ],
   "note": "Holds for queries, mutations and fragments; subscriptions are exported as QueryDocumentNode, proved for all of them."
  },
  {
   "property": "C14",
   "status": "proved",
   "theorems": [
    "C14_accepted",
    "C14_rejected",
    "C14_written"
   ],
   "note": "Acceptance is exact, the first offending variable is reported, and the written type accepts exactly GraphQL's values."
  },
  {
   "property": "C51",
   "status": "partial",
   "theorems": [
    "C51_globals_path_partial",
    "C51_dotted",
    "C51_absolute",
    "C51_refuted"
   ],
   "note": "Exact for relative modules whose last component has no extension; a dotted module name is used as the file name unchanged, and a remainder starting with / leaves the root directory (prefix @ with module @/globals writes /globals.ts): refuted by examples."
  },
  {
   "property": "C52",
   "status": "partial",
   "theorems": [
    "C52_reported",
    "C52_success",
    "C52_refuted"
   ],
   "note": "Every processed directory that cannot be read is reported, under every schedule; with one thread or no subdirectories exit code 0 implies a readable tree. With more threads a lost directory is lost silently (see C36): refuted by a schedule."
  },
  {
   "property": "C15",
   "status": "proved",
   "theorems": [
    "C15_documents",
    "C15_files"
   ],
   "note": "Field arguments, directives and variable default values of the document and of every imported fragment can be changed at will: same diagnostics, same written file."
  },
  {
   "property": "C17",
   "status": "proved",
   "theorems": [
    "C17_closed"
   ],
   "note": "Every name used by a generated module is declared in it, imported from the globals module, built in, or a custom scalar's alias."
  },
  {
   "property": "C19",
   "status": "proved",
   "theorems": [
    "C19_canonical"
   ],
   "note": "Members, union alternatives and the globals import of every generated module are in canonical sorted order, globals without repetition."
  },
  {
   "property": "C21",
   "status": "proved",
   "theorems": [
    "C21_readonly"
   ],
   "note": "With the option every property of the result types is readonly; without it none is; no property of the variables type ever is, and nothing else changes."
  },
  {
   "property": "C03",
   "status": "partial",
   "theorems": [
    "C03_partial",
    "C03_operation",
    "C03_refuted"
   ],
   "note": "At every depth the declaration for an object type lists exactly the selected response keys, for regular documents (object types that share a declaration select the same things); at the root without that guard. Refuted in general: the code shares one declaration between object types whose key sets agree but whose sub-selections differ."
  },
  {
   "property": "C16",
   "status": "partial",
   "theorems": [
    "C16_partial",
    "C16_refuted"
   ],
   "note": "Every possible object type has exactly one alternative, named as documented, for regular documents. Refuted in general by the same sharing of declarations."
  },
  {
   "property": "C23",
   "status": "partial",
   "theorems": [
    "C23_partial",
    "C23_only",
    "C23_refuted"
   ],
   "note": "Nothing but selected enums and variable types is imported, sorted and without repetition, unconditionally; in regular documents the import is exact. Refuted in general: an enum selected only for an object type that shares another's declaration is not imported."
  },
  {
   "property": "C35",
   "status": "partial",
   "theorems": [
    "C35_run",
    "C35_partial",
    "C35_refuted",
    "C35_refuted_sharing"
   ],
   "note": "For trees in which every imported file is itself a source file, exit code 0 means that every document and every imported fragment is valid, and that every selection of a regular document is in its output, at every depth. Refuted without these conditions: an invalid fragment in a file that is not a source loses whole selections silently, and so does sharing of declarations."
  },
  {
   "property": "C18",
   "status": "partial",
   "theorems": [
    "C18_partial",
    "C18_properties",
    "C18_labels",
    "C18_refuted",
    "C18_refuted_property"
   ],
   "note": "No type name is declared twice and no property listed twice, for documents that never ask for fields of differently named types under one key, and whose labels are kept apart (labels_apart): what can follow one object type or one key of a composite field in the names declared below it never makes it equal to a name below another one of the same place. C18_labels gives a condition on the labels alone: no label is another one of the same place followed by an underscore and more. Labels without underscores meet it. Refuted without these conditions: the names joined with '_' can run together, and two fields of different types can get the same key."
  },
  {
   "property": "C04",
   "status": "partial",
   "theorems": [
    "C04_partial",
    "C04_refuted_sharing",
    "C04_refuted_skip"
   ],
   "note": "Responses are specified from the introspection result by GraphQL's own rules (field collection, covariant implementations, value completion), and every response is accepted by the generated type named after the operation, for regular documents without active @skip/@include, with labels kept apart (as in C18), no nullable list of non-null lists, and no leaf type named like a declaration. Refuted in general by shared declarations and by @skip/@include."
  },
  {
   "property": "C07",
   "status": "partial",
   "theorems": [
    "C07_partial",
    "C07_collection",
    "C07_messages",
    "C07_file",
    "C07_refuted",
    "C07_messages_refuted",
    "C07_refuted_fragments"
   ],
   "note": "For consistent schemas and documents that never ask for fields of differently named types under one key, output and globals are the same for every iteration order at every site; for whole files also if no two reachable files define fragments of one name. For any document and schema at most the order of same-named properties varies, and messages agree up to the order of listed alternatives. Refuted without the conditions."
  },
  {
   "property": "C48",
   "status": "partial",
   "theorems": [
    "C48_partial",
    "C48_collected",
    "C48_refuted"
   ],
   "note": "Repeating, reordering, splitting, wrapping, inlining a fragment, changing positions, arguments and directives: anywhere, any number of times, in either direction, gives the identical module, for documents in which the fields under one response key agree in type, documentation and deprecation. More generally any two documents that collect the same fields for every object type compile to the same module. Refuted without the condition: reordering changes which of two different descriptions is written."
  },
  {
   "property": "C53",
   "status": "partial",
   "theorems": [
    "C53_partial",
    "C53_refuted",
    "C53_injected"
   ],
   "note": "For GraphQL names that are not reserved or predefined in TypeScript and descriptions without comment delimiters. Refuted otherwise: a query named any compiles to a text that is no module, and a description containing **//...//** adds a property to the declared type."
  },
  {
   "property": "C54",
   "status": "partial",
   "theorems": [
    "C54_partial",
    "C54_injected",
    "C54_refuted"
   ],
   "note": "Under the same condition on the introspection result, including the names of enum values and input fields. Refuted otherwise: an enum named string gives an unreadable file, and a description can add a statement."
  },
  {
   "property": "C55",
   "status": "partial",
   "theorems": [
    "C55_partial",
    "C55_refuted"
   ],
   "note": "For documents as in C18 whose imported types are not named graphqlDocument, like the node type, or like a declaration of the operation. Refuted otherwise: a query named Mood that selects the enum Mood binds Mood twice."
  },
  {
   "property": "C56",
   "status": "partial",
   "theorems": [
    "C56_partial",
    "C56_default_node",
    "C56_refuted"
   ],
   "note": "Under the conditions of C49 and C53. Unless configured otherwise the node module is a path exported by the package. Refuted otherwise: a run over a query named any exits with 0 and writes a text that is no module."
  },
  {
   "property": "C57",
   "status": "proved",
   "theorems": [
    "C57_exact",
    "C57_standard",
    "C57_same",
    "C57_rejected"
   ],
   "note": ""
  },
  {
   "property": "C58",
   "status": "partial",
   "theorems": [
    "C58_exact",
    "C58_rejected",
    "C58_file_or_args",
    "C58_camelcased",
    "C58_unknown_keys",
    "C58_camelcased_refuted"
   ],
   "note": "For every option except --schema-path, whose key is schemaFile (C58_file_or_args has it under that key). Refuted for --schema-path: the key schemaPath, like any unknown key, is ignored without a message."
  },
  {
   "property": "C59",
   "status": "partial",
   "theorems": [
    "C59_answer",
    "C59_whole",
    "C59_accepted",
    "C59_partial",
    "C59_deep",
    "C59_never_deprecated",
    "C59_flags",
    "C59_hidden",
    "C59_refuted",
    "C59_refuted_deep"
   ],
   "note": "C59_answer says exactly what qlc reads of what is downloaded, C59_whole what is downloaded; servers that hide deprecated input fields are included. Equal runs for schemas without deprecated fields and with at most seven wrappers around a type. Refuted otherwise: deprecations are never asked for, so there are no warnings and no @deprecated; a type with more than seven list and non-null wrappers makes every run fail."
  },
  {
   "property": "C60",
   "status": "partial",
   "theorems": [
    "C60_success",
    "C60_contents",
    "C60_failure",
    "C60_refuted"
   ],
   "note": "The first half and the last clause hold. Refuted: a failed download empties and deletes the previous file."
  },
  {
   "property": "C61",
   "status": "partial",
   "theorems": [
    "C61_partial",
    "C61_exact",
    "C61_refuted"
   ],
   "note": "For queries. Refuted for mutations, subscriptions and fragments: their nodes also extend QueryDocumentNode, as its only property is optional, so that the result is BasicObject."
  },
  {
   "property": "C62",
   "status": "proved",
   "theorems": [
    "C62_pool",
    "C62_process",
    "C62_one_worker",
    "C62_covers",
    "C62_once",
    "C62_outputs",
    "C62_condition_needed"
   ],
   "note": "C62_pool and C62_process for any number of workers if no file read is an output; C62_one_worker without that condition; C62_covers is the converse. C62_once and C62_outputs carry the completeness and determinism results over to interleaved operations. C62_condition_needed: without the condition an import of an output can be read half written."
  },
  {
   "property": "C63",
   "status": "proved",
   "theorems": [
    "C63_distance",
    "C63_suggestions",
    "C63_field",
    "C63_fragment",
    "C63_symmetric"
   ],
   "note": "Distance counted in bytes. C63_field and C63_fragment at the level of files, with strsim's algorithm as the edit distance."
  },
  {
   "property": "C64",
   "status": "partial",
   "theorems": [
    "C64_when",
    "C64_off",
    "C64_no_color",
    "C64_same_text",
    "C64_look",
    "C64_report",
    "C64_process",
    "C64_leak_refuted"
   ],
   "note": "All clauses hold; that no colour stays on afterwards holds if the texts printed contain no escape character. Refuted otherwise: file names and source lines are printed unfiltered."
  },
  {
   "property": "C65",
   "status": "proved",
   "theorems": [
    "C65_exact",
    "C65_help",
    "C65_version",
    "C65_order",
    "C65_process",
    "C65_expressible"
   ],
   "note": "For arguments in UTF-8; after clap's published source. C65_exact in both directions."
  },
  {
   "property": "C66",
   "status": "partial",
   "theorems": [
    "C66_ir",
    "C66_warning",
    "C66_others",
    "C66_document",
    "C66_distinct",
    "C66_names",
    "C66_file_partial",
    "C66_run_partial",
    "C66_refuted_globals",
    "C66_refuted_import"
   ],
   "note": "Two messages name the wrong file: a failure to write the file of global types, and the import of an operation. Distinctness for names without backquotes."
  },
  {
   "property": "C67",
   "status": "proved",
   "theorems": [
    "C67_syntax",
    "C67_strings",
    "C67_utf8",
    "C67_value",
    "C67_one_value",
    "C67_blanks",
    "C67_every",
    "C67_schema",
    "C67_schema_rejected",
    "C67_config",
    "C67_config_rejected",
    "C67_deep_refuted"
   ],
   "note": "After serde_json's published source. C67_deep_refuted shows the limit on nesting that C67_schema mentions: a text that says a schema and is rejected."
  },
  {
   "property": "C68",
   "status": "partial",
   "theorems": [
    "C68_release",
    "C68_installs",
    "C68_refuses",
    "C68_platforms",
    "C68_channels",
    "C68_final",
    "C68_prerelease_refuted"
   ],
   "note": "Everything but the last clause is proved. Pre-release versions other than alpha and beta become full releases (C68_prerelease_refuted). Versions with a plus sign are not covered (npm drops what follows it)."
  },
  {
   "property": "C69",
   "status": "proved",
   "theorems": [
    "C69_text",
    "C69_one",
    "C69_layout",
    "C69_named",
    "C69_fit",
    "C69_values"
   ],
   "note": "About the model of graphql-parser 0.4.0 in Gql.v, written after that crate, which is not part of the repository. Which number texts and string escapes are accepted are parameters. C69_fit is C56_partial for runs with this reader, without its assumption on parsed names. C69_values: the tokens of any part of a text, such as the value of an argument, are what its written form reads back to."
  },
  {
   "property": "C70",
   "status": "partial",
   "theorems": [
    "C70_parts",
    "C70_file_partial",
    "C70_lines",
    "C70_tame_partial",
    "C70_refuted_crlf",
    "C70_refuted_tab",
    "C70_refuted_import"
   ],
   "note": "C70_file_partial covers every message of compile_file that shows a line, for texts without tabs, carriage returns and byte order marks. C70_tame_partial covers all texts in which no carriage return follows a # on its line: the line is right, and the column too if there is no tab, carriage return or byte order mark left of the part on its line. Refuted otherwise: a comment that ends in carriage return and line feed counts as two lines, so all lines below it are reported one too low; a tab counts as eight columns; and for an imported operation the line shown under the name of the compiled file may be a line of another file."
  },
  {
   "property": "C71",
   "status": "proved",
   "theorems": [
    "C71_file",
    "C71_run",
    "C71_tokens",
    "C71_text",
    "C71_refuted_indent"
   ],
   "note": "C71_text is for the reader of Gql.v, C71_run for any parser and texts it gives essentially the same document. Both compare runs with the same schedule and the same hash orders, which may depend on the keys of a map but not on its values (by_keys). C71_refuted_indent shows why the import lines must stay as they are: an indented import line is not seen, though it is a comment for GraphQL."
  },
  {
   "property": "C72",
   "status": "partial",
   "theorems": [
    "C72_run_partial",
    "C72_text_partial"
   ],
   "note": "C72_text_partial starts from the words of the command line and the texts of the schema file and the documents, and ends at the texts written; C72_run_partial is the same for any parser. The conditions are those of C04 and C56: regular documents whose labels are kept apart (as in C18), no active @skip or @include, no nullable list of non-null lists in the schema, no name of a declaration equal to the name of a leaf type, self-contained imports, and node module and globals module of different names. Without them C04 has refutations. What custom scalars and the types of TypeScript accept is a parameter (surroundings)."
  },
  {
   "property": "C73",
   "status": "partial",
   "theorems": [
    "C73_exact_partial",
    "C73_run_partial",
    "C73_text_partial",
    "C73_lenient_refuted",
    "C73_number_refuted",
    "C73_nested_refuted"
   ],
   "note": "C73_text_partial starts from the words of the command line and the texts of the schema file and the documents; C73_run_partial is the same for any parser. Shown in both directions for requests that spell everything out: what the server takes is allowed, and what is allowed is taken. Conditions: no list of lists in the fields of input objects (C73_nested_refuted, C26), no declared name of the document equal to the name of an input type. C73_exact_partial is exact with scalars as the surroundings have them, null included where a scalar is mapped to any. For the others the surroundings give the TypeScript types of the scalars of the schema at least (loose) or at most (tight) the values that the server takes; for number and Int the second does not hold (C73_number_refuted). A server takes more than is spelled out: a variable with a default may be left out, one item may stand for a list; the type refuses these (C73_lenient_refuted)."
  },
  {
   "property": "C74",
   "status": "partial",
   "theorems": [
    "C74_partial",
    "C74_run_partial",
    "C74_text_partial",
    "C74_wide_partial",
    "C74_exact_partial",
    "C74_exact_text_partial",
    "C74_wide_is",
    "C74_tags_refuted",
    "C74_covariant_refuted",
    "C74_any_refuted"
   ],
   "note": "C74_partial is about one document, C74_run_partial about a run with any parser, C74_text_partial starts from the words of the command line and the texts of the files and is an equivalence. That responses are allowed needs the conditions of C72. That nothing else is allowed needs three more, each with a refutation: object types have the fields of their interfaces with the same types (C74_covariant_refuted), no object is asked for __typename under two keys (C74_tags_refuted), and the surroundings give the names of TypeScript and of custom scalars no more than the values of the scalars, which fails for any (C74_any_refuted). C74_wide_partial, C74_exact_partial and C74_exact_text_partial ask nothing of the surroundings: the type allows exactly the responses in which scalars have the values that the surroundings give them, so that with any for a scalar null may stand for it and nothing else is lost. C74_wide_is: without null these are the responses."
  },
  {
   "property": "C75",
   "status": "partial",
   "theorems": [
    "C75_body",
    "C75_text",
    "C75_request",
    "C75_download",
    "C75_partial",
    "C75_hidden_refuted"
   ],
   "note": "C75_body is about JSON.stringify for every text. C75_text and C75_request: the literal query, and the body sent, ask for the introspection and nothing else, and are valid. C75_download says exactly what qlc reads afterwards. C75_partial: every run is the run with the complete schema, if there are no deprecations and at most seven wrappers (as C59). C75_hidden_refuted: the query does not pass includeDeprecated to inputFields, so a server of the later specification leaves deprecated input fields out, and the generated input type lacks them; no error is reported."
  },
  {
   "property": "C76",
   "status": "partial",
   "theorems": [
    "C76_run",
    "C76_text_partial",
    "C76_exact_partial",
    "C76_fragment_refuted"
   ],
   "note": "C76_run says for every document what DataOf and VariablesOf give for the default export of its output: the types of the document for queries (and for subscriptions, which are written as queries, finding of C13), BasicObject for mutations and fragments (C61). C76_text_partial joins this with C73 and C74, with their guards: for a query a client gets exactly the possible responses as data and the spelled out requests as variables. C76_exact_partial is the same with scalars as the surroundings have them, whatever these are, as two equivalences. C76_fragment_refuted is a run with a fragment."
  },
  {
   "property": "C77",
   "status": "partial",
   "theorems": [
    "C77_run",
    "C77_untouched",
    "C77_again_partial",
    "C77_text_partial",
    "C77_outputs",
    "C77_refuted"
   ],
   "note": "C77_run compares any two runs on the same sources, C77_untouched says what a run can change at all (both for every exit code). C77_again_partial is the run on what a run has left; its guard is that no source and no import is the file of globals, and that new files of the listing are not called like sources, which C77_outputs shows of the outputs. C77_text_partial is the same from texts, where the schema too is read from the disk left by the first run. Without the guard it is false: C77_refuted has a globals module called types.graphql, which the next run takes for a source. As C43 for the schedules: one worker, or no directory in a directory."
  },
  {
   "property": "C78",
   "status": "partial",
   "theorems": [
    "C78_depth",
    "C78_can_exit_partial",
    "C78_exits_partial",
    "C78_exited",
    "C78_panics",
    "C78_refuted"
   ],
   "note": "C78_can_exit_partial and C78_exits_partial give the exit for runs whose sources are well formed; C78_exited is the converse, C78_panics says where a panic comes from. A run that nothing schedules again stays under way, so with several workers only the possibility of an exit is claimed, with one worker the exit itself. Sources and outputs are separate files (C43). Without the guard it is false: C78_refuted has a document that imports itself. The converse of the spread condition speaks of the positions that the selections reach (leads_below), the guard of the spreads alone."
  },
  {
   "property": "C79",
   "status": "partial",
   "theorems": [
    "C79_accepts",
    "C79_exits_zero",
    "C79_rejects",
    "C79_exact_partial",
    "C79_text_partial",
    "C79_refuted",
    "C79_outside_refuted",
    "C79_twice_refuted"
   ],
   "note": "C79_accepts and C79_exits_zero say that valid projects exit with 0, without exclusions. The converse, C79_rejects, excludes subscriptions, different fragments of one name reaching one source, and imports from outside the root directory; C79_refuted, C79_twice_refuted and C79_outside_refuted show that each is needed. C79_exact_partial is the equivalence for one worker and C79_text_partial the same from the texts of the command line, the schema and the documents. Assumed: sources and outputs are separate files (C43), each composite type of a field has an object type, and paths agree (C07)."
  },
  {
   "property": "C80",
   "status": "proved",
   "theorems": [
    "C80_output",
    "C80_edit",
    "C80_blame"
   ],
   "note": "For one worker, or several over a flat tree, with sources and outputs separate files as in C43 (other runs may skip files, C36). C80_edit is about a run after edits; C80_blame says where a new error comes from."
  },
  {
   "property": "C81",
   "status": "proved",
   "theorems": [
    "C81_loaded",
    "C81_module",
    "C81_accepts",
    "C81_outputs",
    "C81_text_partial"
   ],
   "note": "C81_refuted, C81_value_refuted and C81_member_refuted show what the conditions exclude: projects that are accepted though not valid, new enum values, new object types of an interface. C81_outputs is for one worker, or several over a flat tree. C81_text_partial is about two disks, from the texts of their files to the texts left there."
  },
  {
   "property": "C82",
   "status": "partial",
   "theorems": [
    "C82_module_partial",
    "C82_run_partial",
    "C82_text_partial",
    "C82_refuted"
   ],
   "note": "Guards: as for C04, but only on the fragment and its own imports; of the document nothing but that no key of an object stands for two fields (which GraphQL demands). C82_refuted: object types that share a declaration of the fragment."
  },
  {
   "property": "C83",
   "status": "partial",
   "theorems": [
    "C83_module_partial",
    "C83_run_partial",
    "C83_text_partial",
    "C83_refuted",
    "C83_refuted_tags"
   ],
   "note": "Guards: both documents regular, the names of leaf types not declared by either, labels of the fragment apart, and __typename under one key only in the document. No guard on directives, wrappers or custom scalars. C83_refuted: object types that share a declaration of the fragment but not of the query; C83_refuted_tags: two keys for __typename."
  },
  {
   "property": "C84",
   "status": "partial",
   "theorems": [
    "C84_module_partial",
    "C84_renamed",
    "C84_recast",
    "C84_rewritten",
    "C84_composed",
    "C84_run_partial",
    "C84_text_partial",
    "C84_refuted"
   ],
   "note": "Guard: the fields an object type has under one key agree in type, description and deprecation, at every depth. The two runs of C84_run_partial and C84_text_partial have the same options for what is generated; root directory and import prefix may be others. C84_refuted: without it, moving a selection into a fragment changes the description that is written."
  },
  {
   "property": "C85",
   "status": "partial",
   "theorems": [
    "C85_entries",
    "C85_paths",
    "C85_installed",
    "C85_refused",
    "C85_import",
    "C85_import_refuted"
   ],
   "note": "Everything but the last clause for modules compiled to CommonJS without esModuleInterop: there the import is undefined, although index.d.ts declares a string (C85_import_refuted)."
  },
  {
   "property": "C86",
   "status": "partial",
   "theorems": [
    "C86_run_partial",
    "C86_none",
    "C86_readonly",
    "C86_scalars",
    "C86_modules",
    "C86_text_partial"
   ],
   "note": "Assumes that the written files are apart from the files read (C35), that input types are declared consistently and, if the module of globals is renamed, that both files can be written; several threads need a flat tree. The message of why the module of globals could not be made is not compared: with several reasons, which one is told depends on the hash order."
  },
  {
   "property": "C87",
   "status": "partial",
   "theorems": [
    "C87_printed",
    "C87_module",
    "C87_rejected",
    "C87_run_partial",
    "C87_text_partial"
   ],
   "note": "C87_module and C87_rejected are for all documents. For runs, C87_run_partial and C87_text_partial assume what C84 does (settled requests, outputs apart from sources; root directory and import prefix may be others), and that both exit with code 0 (for the exit codes see C93)."
  },
  {
   "property": "C88",
   "status": "partial",
   "theorems": [
    "C88_kept",
    "C88_module_partial",
    "C88_run_partial",
    "C88_text_partial",
    "C88_refuted",
    "C88_refuted_tags"
   ],
   "note": "Guards: both documents regular, __typename under one key only in the document that selects more, labels of the other apart, and the names of leaf types not declared by either. No guard on directives, arguments, variables or wrappers. C88_refuted: a selection that ends the sharing of a declaration; C88_refuted_tags: one that begins it, with two keys for __typename."
  },
  {
   "property": "C89",
   "status": "partial",
   "theorems": [
    "C89_changed",
    "C89_module_partial",
    "C89_run_partial",
    "C89_text_partial",
    "C89_refuted",
    "C89_needs_fewer"
   ],
   "note": "Guards: those of C88, and no nullable list of non-null lists in either schema (C89_refuted, by C01). C89_needs_fewer: object types may not be added to interfaces or unions."
  },
  {
   "property": "C90",
   "status": "partial",
   "theorems": [
    "C90_requests",
    "C90_run_partial",
    "C90_text_partial",
    "C90_refuted"
   ],
   "note": "Guards: those of C73, for both projects; nothing is asked of the surroundings, so that scalars mapped to any are covered. C90_refuted: a list of lists in an input object (C26) that need not be given any more. The second half of the run theorems says what breaks callers: a new variable that is required, a variable that is gone."
  },
  {
   "property": "C91",
   "status": "partial",
   "theorems": [
    "C91_text_partial"
   ],
   "note": "Guards: those of C89 for what is answered and of C90 for what is asked for, queries only (for mutations and fragments the helpers give BasicObject, C76_fragment_refuted) and the node module of the package. The refutations are those of C89, C90 and C76."
  },
  {
   "property": "C92",
   "status": "partial",
   "theorems": [
    "C92_loaded",
    "C92_unreadable",
    "C92_accepts",
    "C92_outputs_partial",
    "C92_exits_partial",
    "C92_text_partial",
    "C92_refuted"
   ],
   "note": "Guards: no name declared twice in the introspection result (C92_refuted: the last declaration counts); as in C81, fields under one response key agree in type, documentation and deprecation, and one worker or a flat tree. C92_accepts and C92_outputs_partial are for valid projects; C92_exits_partial is for all projects, one worker and the exclusions of C79. Messages are not compared."
  },
  {
   "property": "C93",
   "status": "partial",
   "theorems": [
    "C93_valid",
    "C93_exits_partial",
    "C93_outputs_partial",
    "C93_text_partial",
    "C93_refuted"
   ],
   "note": "Guards: the new names of fragments are one to one and no two fragments of one name reach a source (C93_refuted: otherwise another fragment may be meant, and nothing is reported); C93_exits_partial has one worker and the exclusions of C79. C93_outputs_partial and C93_text_partial are for valid projects whose fields under one response key agree in type, documentation and deprecation, with one worker or a flat tree, and all operations named. Messages are not compared (they quote lines of the sources)."
  },
  {
   "property": "C94",
   "status": "partial",
   "theorems": [
    "C94_loaded",
    "C94_module_partial",
    "C94_accepts",
    "C94_exits_partial",
    "C94_outputs_partial",
    "C94_text_partial",
    "C94_refuted"
   ],
   "note": "Guards: names that can be declared and no description of either schema that ends its comment (C94_refuted: such a description declares a type, finding 10). C94_exits_partial has one worker and the exclusions of C79. C94_module_partial, C94_outputs_partial and C94_text_partial are for valid documents whose fields under one response key agree in type, documentation and deprecation, with one worker or a flat tree; the modules are compared as the statements they read as (only_reads), their comments are not. C94_text_partial leaves out the location of the schema file itself. Messages are not compared (deprecation warnings are C10's)."
  },
  {
   "property": "C95",
   "status": "partial",
   "theorems": [
    "C95_partial",
    "C95_run_partial",
    "C95_text_partial",
    "C95_refuted"
   ],
   "note": "Guards: regular documents (C95_refuted: one declaration for owner is shared although Cat, Dog and Eel select different things under it, so what is left after comparing with Dog lacks the property asked for, finding 1), no subscriptions, and for the written text a name that is not reserved. Narrowing is stated on values: of the values a union accepts, those whose tag is T are accepted by exactly the alternative that carries T."
  },
  {
   "property": "C96",
   "status": "partial",
   "theorems": [
    "C96_valid",
    "C96_exits_partial",
    "C96_outputs_partial",
    "C96_text_partial",
    "C96_refuted"
   ],
   "note": "Guards: no two fragments of one name reach a source (C96_refuted: otherwise the order of import lines decides which is meant, and nothing is reported); C96_exits_partial has one worker and the exclusions of C79. C96_outputs_partial and C96_text_partial are for valid projects whose fields under one response key agree in type, documentation and deprecation, with one worker or a flat tree, and the same options for what is generated (same_output_options; the root directory and the prefix of import lines may be others, as in C96_nonvacuous). Messages are not compared (they name paths)."
  },
  {
   "property": "C97",
   "status": "partial",
   "theorems": [
    "C97_valid",
    "C97_outputs_partial",
    "C97_text_partial",
    "C97_refuted"
   ],
   "note": "Guards: no two fragments of one name reach a source (C97_refuted: the import that is left out may have brought the fragment that was taken, and nothing is reported). C97_outputs_partial and C97_text_partial are for valid projects whose fields under one response key agree in type, documentation and deprecation, with one worker or a flat tree, and the same options for what is generated (the root directory and the prefix of import lines may be others). Only one direction: import lines that are added may lead to missing files, operations or back. That what a document needs is still imported is asked for per source (needs_kept). Messages are not compared."
  },
  {
   "property": "C98",
   "status": "partial",
   "theorems": [
    "C98_valid",
    "C98_in_place",
    "C98_outputs_partial",
    "C98_text_partial",
    "C98_refuted"
   ],
   "note": "C98_in_place has any documents, and no guard on fragments or fields: files are deleted that no source that stays reads, and nothing else is changed. In it the globals are compared if the smaller project compiles; that it does is in C98_outputs_partial. Guards of the others: no two fragments of one name reach a source (C98_refuted: the deleted file may have held the fragment that was taken, and nothing is reported). C98_outputs_partial and C98_text_partial are for valid projects whose fields under one response key agree in type, documentation and deprecation, with one worker or a flat tree, and the same options. The clause about the module of globals is for a remaining project that uses a global. What an earlier run left at the output of a deleted source is not the subject. Messages are not compared."
  },
  {
   "property": "C99",
   "status": "partial",
   "theorems": [
    "C99_valid",
    "C99_in_place",
    "C99_outputs_partial",
    "C99_text_partial"
   ],
   "note": "C99_in_place has any documents, and no guard on fragments or fields: files are added to a project that compiled and the former ones stay where they are; the outputs of these are the same even if others fail. In it the globals are compared if the larger project compiles; that it does is in C99_outputs_partial. Guards of the others: no two fragments of one name reach a source of the larger project. C99_outputs_partial and C99_text_partial are for valid projects whose fields under one response key agree in type, documentation and deprecation (otherwise not even two runs on one project need agree, C04), with one worker or a flat tree, and the same options. The files that are added are valid on their own (valid_source of C79). The clause about the module of globals is for a former project that used a global. Messages are not compared."
  }
 ]
}