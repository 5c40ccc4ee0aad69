# Generates /verif/properties.jsonl. Not part of the build.
import json
P=[]
def p(id,title,statement,quantifier,why,anchors):
    P.append(dict(id=id,title=title,statement=statement,quantifier=quantifier,why_tests_cant=why,anchors=anchors))

p("C01","List/non-null wrappers are translated faithfully",
 "For a selected field whose schema type is any nesting of LIST and NON_NULL around a named type, the TypeScript type expression written for the property accepts null, arrays and inner values at exactly the levels at which the GraphQL type allows them.",
 "all finite nestings of LIST/NON_NULL wrappers (of any depth) and all base type names",
 "Nesting depth is unbounded; the builder is a 6-state automaton with a stack and a test only samples a few nestings (the fixtures contain three).",
 ["src/graphql/schema/field.rs: ModifierBuilder::actualize/listize, FieldType::try_from","src/typescript.rs: single_prop_type_def, prop_type_def"])
p("C02","Schema loading is total and exact",
 "Loading an introspection result either fails with the documented 'malformed schema' error for the first bad type, or yields a schema in which each type name resolves to the last definition given for it, every object, interface and union offers __typename (and input objects do not), and every declared field is present with its last definition.",
 "all introspection documents (after JSON decoding)",
 "Quantifies over arbitrary documents with duplicates, missing parts and unknown kinds.",
 ["src/graphql/schema.rs: Schema::try_from_reader, Type::try_from, get_fields_for_complex","src/graphql/schema/field.rs: FieldType::try_from"])
p("C03","Exact response keys per concrete type",
 "When an operation or fragment compiles, then for every concrete object type the value can have at run time, the property names in the generated type for it are exactly the response keys that GraphQL's CollectFields algorithm yields for that object type, at every depth, provided the imported fragments are themselves error free.",
 "all documents, all sets of imported fragments, all schemas, all concrete types, all nesting depths",
 "Aliases, nested inline fragments, fragment spreads and interface/union narrowing combine without bound.",
 ["src/graphql/ir.rs: collect_fields_from_selection_set, insert_field, ComplexTraversal::clone_for_type_spread/extend_from"])
p("C04","Generated result type is sound for GraphQL execution",
 "Every response a spec-conforming GraphQL server can return for the compiled operation is accepted by the generated TypeScript result type.",
 "all documents, schemas, runtime type choices and response values",
 "Quantifies over all server responses for all documents.",
 ["src/graphql/ir.rs","src/typescript.rs: type_definitions_from_complex_field_collection, type_definitions_from_complex_ir"])
p("C05","Valid documents compile without errors",
 "A document all of whose selected fields exist on their parent types, whose leaf fields have no selection set and composite fields have a non-empty one, whose inline fragments have composite type conditions and whose spreads are imported (acyclically), compiles with no error message against a schema whose type references are consistent.",
 "all documents and schemas satisfying the stated validity conditions",
 "Completeness over all documents cannot be sampled.",
 ["src/graphql/ir.rs: Operation::compile"])
p("C06","Every invalid local selection is reported",
 "If the document itself (not a fragment imported from another file) selects an unknown field, gives a selection set to a leaf, omits one from a composite field, spreads a fragment that was not imported, or uses an inline fragment without type condition or with an unknown/leaf type, the file is rejected with an error and nothing is written for it; if it compiles, none of these occur.",
 "all documents and all positions/depths of the offending selection",
 "An error deep under nested inline fragments or aliases may be swallowed on some path; only a proof covers all paths.",
 ["src/graphql/ir.rs: insert_field, collect_fields_from_selection_set"])
p("C07","Output does not depend on hash-map iteration order",
 "Compiling the same document with the same schema produces byte-identical output no matter in which order the process's randomly seeded hash maps iterate.",
 "all iteration orders at all iteration sites, all documents",
 "The iteration order is randomised per map instance; a test run sees one order.",
 ["src/graphql/ir.rs: UniqueFields, ComplexTraversal (HashMap)","src/typescript.rs: sort_unstable_by call sites"])
p("C08","Internal program errors are unreachable with a consistent schema",
 "With a schema whose field type references agree with the kinds of the referenced types, compiling any document never reports the internal errors 'attempting merge of complex type', 'traversing a terminal', 'input object type' traversal, or 'failed lookup of type' for a field's type.",
 "all documents, all consistent schemas",
 "Unreachability is a for-all statement.",
 ["src/graphql/ir.rs: FieldTraversal::extend_from, get_type_ir_for_field"])
p("C09","Diagnostics point into the compiled file",
 "Every positioned error or warning reported for a file carries the position of a selection, definition or variable of that same file, never of an imported fragment.",
 "all documents, all imported fragments",
 "Errors and warnings can be produced arbitrarily deep inside imported fragments.",
 ["src/graphql/ir.rs: ForeignFragmentJumpState, collect_fields_from_selection_set"])
p("C10","Deprecation warnings are exact",
 "With deprecation warnings enabled and a successful compile, one warning is reported for each selection in the file itself of a field marked deprecated (carrying its position, name and parent type; in document order, except that the uses inside a field come before the field's own), none for selections inside imported fragments, and none at all when the option is off.",
 "all documents and schemas",
 "Counts every occurrence at every depth.",
 ["src/graphql/ir.rs: insert_field (push_warning)"])
p("C11","Over-narrowing warnings are exact",
 "A fragment spread or inline fragment written in the file is warned about exactly when no concrete type possible at that point can satisfy its type condition; such a spread contributes nothing to the output type.",
 "all documents and schemas",
 "Depends on the set of concrete types at each depth.",
 ["src/graphql/ir.rs: ComplexTraversal::clone_for_type_spread"])
p("C12","Field collection terminates",
 "Compiling a document terminates whenever fragment spreads are acyclic; a fragment that (transitively) spreads itself makes the compiler recurse without bound.",
 "all documents and imported fragment sets",
 "Termination is a statement about all recursion depths.",
 ["src/graphql/ir.rs: collect_fields_from_selection_set"])
p("C13","Operation kind selects the document-node type",
 "The default export is annotated QueryDocumentNode for queries, MutationDocumentNode for mutations, SubscriptionDocumentNode for subscriptions and FragmentDocumentNode (one type argument) for fragments, with the operation's own name (or the kind's default name) and its Variables type, or never when it has no variables.",
 "all operations and fragments",
 "Ranges over all operations; tests pin one of each kind.",
 ["src/graphql/ir.rs: build_from_operation, OperationKind::from","src/typescript.rs: compile_ir"])
p("C14","Variables are typed faithfully",
 "For every operation whose variables are named types or lists of named types, the Variables type has exactly one property per variable, sorted by name, optional exactly when the GraphQL type is nullable, whose type expression denotes the variable's GraphQL type; lists of lists are rejected with an error, as are unknown types.",
 "all variable definition lists and all type expressions",
 "All type expressions of any depth and all variable lists.",
 ["src/graphql/variable.rs: unwrap_var_def, try_build_variable_ir","src/typescript.rs: compile_variables_type_definition"])
p("C15","Arguments and directives do not affect the output",
 "The generated output and diagnostics are a function of the document without its field arguments and directives.",
 "all documents, all arguments and directives at all depths",
 "For-all over two documents.",
 ["src/graphql/ir.rs: collect_fields_from_selection_set"])
p("C16","Abstract types: every possible type is covered exactly once",
 "For a value of interface or union type the generated union contains, for each possible concrete type, exactly one member that stands for it, with that type's own properties; types are grouped into one shared member only if their generated properties agree.",
 "all collections of possible types and selected properties",
 "Grouping depends on set equalities among arbitrarily many possibilities.",
 ["src/typescript.rs: type_definitions_from_complex_field_collection (smoosh logic)"])
p("C17","Generated files are closed",
 "Every type name referenced in a generated file is a TypeScript builtin, a custom scalar name, a type declared in that same file, or a name listed in the globals import of that file; every name in that import is used.",
 "all successful compiles",
 "References and declarations are produced at different places for unboundedly nested types.",
 ["src/typescript.rs: type_definitions_from_complex_ir, compile_imports"])
p("C18","No duplicate declarations",
 "A generated file declares each type name at most once, and each object type lists each property at most once.",
 "all documents accepted by the compiler",
 "Name mangling by joining path segments with '_' may collide only for special inputs.",
 ["src/typescript.rs: prop_path/sub_prop_path construction","src/graphql/ir.rs: UniqueFields key"])
p("C19","Output is canonical: sorted properties",
 "In every generated object type the properties appear sorted by name, union members appear sorted by concrete type name, and the literal __typename unions are sorted.",
 "all successful compiles",
 "All sizes and orders.",
 ["src/graphql/ir.rs: TryFrom<UniqueFields>, TryFrom<ComplexTraversal>"])
p("C20","Schema documentation cannot break out of comments",
 "Whatever text the schema's descriptions contain, the emitted documentation comment ends only at its own terminator, so a description can never inject code into the generated file.",
 "all description strings",
 "All strings.",
 ["src/typescript.rs: compile_documentation"])
p("C21","Readonly option applies to every property",
 "Every property of every generated result type carries readonly when the option is enabled (default) and none does when it is disabled; nothing else in the output changes.",
 "all successful compiles",
 "All documents.",
 ["src/typescript.rs: type_definitions_from_complex_ir"])
p("C22","Scalar mapping",
 "Built-in scalars map to boolean/string/number, custom scalars to any, their own name, or the prefixed name according to the configuration, identically in result types, variables and input objects.",
 "all scalar names and configurations",
 "All names; three separate code paths must agree.",
 ["src/typescript.rs: type_name_from_scalar, compile_custom_scalar_name, compile_variable_type_name","src/typescript/field.rs: compile_scalar"])
p("C23","Globals import is exact",
 "The globals import of a generated file lists exactly the enum types of its selected fields and the non-scalar custom types of its variables, each once, sorted; the same set is what the file contributes to the globals file.",
 "all successful compiles",
 "All documents.",
 ["src/typescript.rs: compile_ir, compile_imports"])
p("C24","Globals file is closed and minimal",
 "When the globals file is produced, it defines exactly the requested types and all enums and input objects transitively reachable from them through input object fields, each exactly once and sorted by name, so every type name referenced in it is defined in it.",
 "all schemas and requested name sets",
 "Transitive reachability over arbitrary type graphs.",
 ["src/typescript.rs: global_types_from_names, add_sub_input_objects"])
p("C25","Enum definitions are exact",
 "The definition of an enum in the globals file has exactly one member NAME = \"NAME\" for each value of the enum in the schema, sorted.",
 "all enum types",
 "All value lists.",
 ["src/typescript.rs: enum_def_from_type"])
p("C26","Input object fields are typed faithfully",
 "In the globals file each input object lists every one of its fields exactly once, sorted, optional exactly when nullable, with a type expression denoting the field's GraphQL type.",
 "all input object types, all wrapper nestings",
 "All nestings.",
 ["src/typescript.rs: input_def_from_type"])
p("C27","Globals computation terminates",
 "Producing the globals file terminates for every schema, including ones with recursive input objects.",
 "all schemas",
 "Termination over all type graphs.",
 ["src/typescript.rs: add_sub_input_objects / add_sub_input_object_field"])
p("C28","Output paths are distinct and never rescanned",
 "Each X.graphql file is compiled to X.graphql.d.ts next to it; two different source files never share an output path, and no output file is ever picked up as a source.",
 "all file paths found by the scan",
 "All paths.",
 ["src/graphql.rs: compile_file (with_extension)","src/worker_pool.rs: Work::run_dir_entry"])
p("C29","A file's output is written only on success, and nothing else is touched",
 "Compiling one file writes at most its own output path, writes it only if the document and its types compiled, and leaves every other file unchanged; when it reports a compile failure, no file is changed.",
 "all files, file systems and failure points",
 "All failure points.",
 ["src/graphql.rs: compile_file"])
p("C30","Import resolution",
 "An #import path is resolved by removing the configured prefix and joining to the root directory if it has that prefix, else relative to the importing file's directory if it starts with '.', else relative to the root directory.",
 "all import lines, directories, and configurations",
 "All strings.",
 ["src/graphql.rs: get_file_path_of_fragment"])
p("C31","Imports are the transitive closure of the leading import lines",
 "The fragments available to a document are those defined by the files reachable through #import lines, where only the import lines before the first non-comment, non-blank line count; a missing file is reported as an error at its import line.",
 "all file systems with acyclic imports",
 "Unbounded chains of imports.",
 ["src/graphql.rs: add_imported_fragments, parse_foreign_fragments"])
p("C32","Import processing terminates",
 "Processing imports terminates for every file system, including ones with import cycles.",
 "all file systems",
 "Cycles of any length.",
 ["src/graphql.rs: add_imported_fragments"])
p("C33","No document makes the compiler panic",
 "For every content of the source and imported files the compiler reports errors as messages and never panics.",
 "all file contents",
 "All strings.",
 ["src/graphql.rs: get_file_path_of_fragment (slice)"])
p("C34","Bad imports are reported",
 "Importing a file that cannot be read, or that is not a fragment, yields an error message attributed to the importing line; the overall run then fails.",
 "all file systems",
 "All import graphs.",
 ["src/graphql.rs: add_imported_fragments, parse_foreign_fragments"])
p("C35","A successful run never silently drops selections",
 "If qlc exits with code 0, then no selection of a compiled document - including those reached through imported fragments - was dropped from its generated type.",
 "all directory trees",
 "Errors inside imported fragments are deliberately suppressed; the claim must hold for all trees.",
 ["src/graphql/ir.rs: collect_fields_from_selection_set (error suppression when not local)","src/graphql.rs: parse_foreign_fragments (parse errors ignored)"])
p("C36","Every file is compiled under every schedule",
 "When all workers have stopped, every .graphql file reachable from the root directory has been compiled, for every number of worker threads and every interleaving.",
 "all directory trees, thread counts >= 1 and schedules",
 "Interleavings; the bug needs a specific preemption.",
 ["src/worker_pool.rs: Worker::pop_work, Worker::run"])
p("C37","No file is compiled twice",
 "Under every schedule each directory entry is processed at most once and nothing outside the tree is processed.",
 "all trees, thread counts and schedules",
 "Interleavings.",
 ["src/worker_pool.rs: Worker::run, pop_work"])
p("C38","Single-threaded runs are complete and terminate",
 "With one worker thread, the pool terminates on every finite directory tree having processed every entry exactly once.",
 "all finite trees",
 "All trees.",
 ["src/worker_pool.rs: pop_work"])
p("C39","Aggregation loses and duplicates nothing",
 "Under every schedule, the messages handed to the exit report are exactly those produced by the processed entries, each as often as it was produced, and the global types are exactly those the processed entries use, each once.",
 "all trees, thread counts, schedules",
 "Interleavings.",
 ["src/worker_pool.rs: WorkAggregateResult, WorkerPool::work"])
p("C40","The pool can always finish",
 "On a finite tree on which no item panics, from every state the pool can reach some continuation stops all workers: there is no deadlock.",
 "all schedules prefixes (reachable states), thread counts and finite trees",
 "State-space of interleavings.",
 ["src/worker_pool.rs: pop_work"])
p("C41","A panicking worker does not hang the process",
 "If a worker panics while processing a file, the process still terminates.",
 "all schedules",
 "Interleavings.",
 ["src/worker_pool.rs: pop_work, WorkerPool::work"])
p("C42","Any thread count works",
 "For every configured number of threads the files under the root directory are compiled.",
 "all thread counts, including 0",
 "All counts.",
 ["src/worker_pool.rs: WorkerPool::work","src/cli.rs: num_threads"])
p("C43","Result files do not depend on the schedule",
 "If no import refers to an output file, the final contents of all files are the same for every schedule that processes all files.",
 "all schedules, trees",
 "Interleavings.",
 ["src/worker_pool.rs","src/graphql.rs: compile_file"])
p("C44","Exit code reflects errors",
 "The process exits with 0 if no error-level message was produced and 1 otherwise; warnings alone never fail the run.",
 "all message lists",
 "All lists.",
 ["src/cli.rs: print_exit_info"])
p("C45","Exit report is complete and well counted",
 "Standard output contains every message once, in order, followed by a summary with the number of errors (if any) and the number of warnings (if any), with plural form exactly when the count exceeds one.",
 "all message lists",
 "All lists.",
 ["src/cli.rs: print_exit_info"])
p("C46","Configuration precedence",
 "A command line value overrides the configuration file, which overrides the default; boolean options are enabled if either enables them; a relative schema path in the configuration file is resolved against that file's directory; a custom scalar prefix takes effect exactly when custom scalars are enabled and a prefix is configured.",
 "all combinations of command line and configuration file options",
 "Combinatorial option space.",
 ["src/cli.rs: RuntimeConfig::from_cli, ConfigFileMatches::from_file_parse, bottom_type_config"])
p("C47","Error locations show the right line",
 "The source line displayed with a positioned message is the line of the file at the reported line number, and the caret is under the reported column.",
 "all file contents and positions",
 "All strings and positions.",
 ["src/cli.rs: LocationInformation::new_from_contents_and_position, fmt_line_encoding"])
p("C48","Splitting and repeating selections is harmless",
 "Repeating a selection, reordering selections, or wrapping selections into an inline fragment on the enclosing type does not change the generated output, for documents without conflicting aliases.",
 "all documents",
 "For-all over pairs of documents.",
 ["src/graphql/ir.rs: UniqueFields::insert, extend_from"])
p("C49","End to end (one thread)",
 "If a single-threaded run exits with code 0 and no source, import or globals file is an output file, then every .graphql file under the root has an output file holding exactly the compilation of that document, the globals file (if any global type is used) holds exactly the closure of the used global types, and no other file changed.",
 "all directory trees, schemas and configurations",
 "Whole-program statement.",
 ["src/main.rs: main","src/worker_pool.rs: WorkerPool::work"])
p("C50","Installer never unpacks an unverified archive",
 "The NPM post-install script unpacks a downloaded archive only if its SHA-256 equals the checksum recorded in package.json for the target, and otherwise deletes it and exits with a failure.",
 "all download results, platforms and checksum tables",
 "All inputs and failure points.",
 ["pkg/npm/lib/postinstall.js: main, checksum"])
p("C51","Globals file is where generated files import it from",
 "The globals module, with the configured import prefix standing for the root directory, is the file written: ROOT/MODULE.ts, inside the root directory.",
 "all root directories, module names and import prefixes",
 "All path strings.",
 ["src/graphql.rs: compile_global_types_file"])
p("C52","Unreadable directories are reported",
 "A directory below the root that cannot be listed, or one of whose entries cannot be read, yields an error naming it, and the process then does not exit with 0.",
 "all directory trees, thread counts and schedules",
 "All failure points and interleavings.",
 ["src/worker_pool.rs: run_dir_entry, Work::run"])
p("C53","Generated modules read back",
 "The text of a generated module, read by a reader for TypeScript that knows nothing of the generator, is one sequence of statements: the import of the node type, the import of the global types if there are any, the type declarations (among them one named after the operation), the constant graphqlDocument with the node type and its type arguments, and the default export. No other reading exists.",
 "all documents, schemas, configurations and hash orders; all readings",
 "Any name or description in a schema may end up in the text.",
 ["src/typescript.rs: compile_ir, compile_imports","src/graphql.rs: compile_file"])
p("C54","Globals file reads back",
 "The text of the globals file reads as exactly one statement per needed global type, sorted by name: an enum with the values, or an object type with the fields and types, that the introspection result gives for it.",
 "all introspection results, sets of requested names, configurations and hash orders; all readings",
 "Any name or description in a schema may end up in the text.",
 ["src/typescript.rs: compile_globals","src/graphql/schema.rs: TryFrom<json::Type>"])
p("C55","A generated module binds no name twice",
 "No name is introduced twice in a generated module by its imports, type declarations and constants together.",
 "all valid documents, schemas and configurations",
 "All operation, type and field names.",
 ["src/typescript.rs: compile"])
p("C56","Generated files fit together",
 "After a run with exit code 0 every output reads as a module; what it imports from the node module is exported by it and has the right number of type parameters; what it imports from the globals module is declared exactly once in the globals file of the run; every other name it uses is declared in it, predefined, or a custom scalar.",
 "all directory trees, documents, schemas and configurations (one thread, or no subdirectories)",
 "Whole-program statement about several output files.",
 ["src/main.rs: main","src/graphql.rs: compile_global_types_file","pkg/npm/lib/typed-documentnode.d.ts","pkg/npm/package.json: exports"])
p("C57","The introspection result is read for what it says",
 "The decoded introspection result is exactly the one the JSON value says: order of entries and unknown keys do not matter at any depth, null and absence mean none, a missing, doubled or ill-typed entry is rejected; a rejected schema file gives exit code 1 and changes no file.",
 "all JSON values, introspection results and runs",
 "JSON values are unbounded in size and nesting.",
 ["src/graphql/schema/json.rs: Schema, Type, Field, FieldType, try_from_reader"])
p("C58","Options can be given in the configuration file, camelcased",
 "A run with options in the configuration file under their camelcased names is the same as a run with those options on the command line; a value of the wrong type is an error with exit code 1 and no effect.",
 "all option values and combinations, orders of entries, surroundings and schedules",
 "Equality of whole runs over all values of all options.",
 ["src/cli.rs: ConfigFileMatches, from_file_parse, from_cli","README.md"])
p("C59","A downloaded schema is as good as a complete one",
 "A run of qlc with the schema downloaded by qlc-download-schema is the same as a run with a complete introspection result of the same server.",
 "all server schemas, runs, documents and configurations",
 "Ranges over all schemas a server may have, including arbitrarily nested types.",
 ["pkg/npm/lib/download.js: introspectionQuery","src/graphql/schema/json.rs"])
p("C60","A download succeeds or leaves the files as they were",
 "qlc-download-schema exits with 0 exactly if the server answered the introspection query with status 200, and then the target file holds the answer; otherwise it exits with 1 and leaves the previous file; no other file is ever changed.",
 "all servers, arguments and file contents",
 "Ranges over all failures of network and file system.",
 ["pkg/npm/lib/download.js: download"])
p("C61","DataOf and VariablesOf extract the types of a document node",
 "DataOf and VariablesOf of a typed document node of any kind give its data and variables types.",
 "all data and variables types, all four kinds of nodes",
 "Type-level programs are not run by tests.",
 ["pkg/npm/lib/typed-documentnode.d.ts: DataOf, VariablesOf"])
p("C62","Interleaved file operations end like files processed one at a time",
 "However the single reads and writes of concurrent workers interleave, including reads in several steps and writes through truncated and partial contents, the process ends as in some run in which each worker reads, compiles and writes each file without interruption: same exit code, same output, same files; provided there is one worker, or no source or import of the run is one of its outputs.",
 "all schedules of single operations, all numbers of workers, all trees and file contents, all ways of splitting reads and writes",
 "Tests see a few schedules of one machine, and file operations interleave rarely.",
 ["src/worker_pool.rs: Work::run, Worker::run","src/graphql.rs: read_graphql_file, compile_file"])
p("C63","Suggestions are the names at most two typing mistakes away",
 "The help text of an unknown field or fragment suggests exactly those existing names that can be reached from the given name by at most two changes, each adding, removing or replacing one byte or exchanging two neighbours; without such a name there is no suggestion. The distance computed is the least number of changes.",
 "all pairs of names of any length; all files with an unknown field or fragment at any depth, all schemas, hash orders and sets of imported fragments",
 "Edit distance is over all pairs of words, and the usual mistakes (missing exchanges across other changes, off by one in the table) show for few of them.",
 ["src/cli.rs: similar_help_suggestions","src/graphql/ir.rs: Error::UnknownField, Error::UnknownFragment"])
p("C64","Colours change nothing but colours",
 "With --no-color, and wherever colours are off, the output is byte by byte the plain report. With colours a terminal shows the same characters and the exit code is the same; severity and mark are yellow for warnings and red for errors, the text is bold, the frame blue; after the report the terminal writes in its normal colour.",
 "all messages and lists of messages, all flags and environments, all runs and schedules",
 "Output of tests is no terminal, so that colours are never on; the rule for nested resets depends on the text printed.",
 ["src/cli.rs: Display for PrintableMessage, fmt_line_encoding, fmt_file, print_exit_info, RuntimeConfig::from_cli"])
p("C65","A command line is accepted exactly if it spells consistent settings",
 "qlc accepts a command line exactly if it is a sequence, in any order, of at most one directory and the documented options, each at most once, options with values written with an equals sign or followed by a word that is no option, paths not empty, the number of threads a decimal number of 64 bits, and the prefix of custom scalars only together with their use; two dashes may precede the directory. It then means exactly these settings. Help and version win over everything to their right. A wrong command line ends the process with code 2, and neither it nor help or version touches a file. Every consistent combination of settings can be written.",
 "all command lines of any length, all words",
 "Command lines are unbounded sequences of unbounded words; tests use five of them.",
 ["src/cli.rs: CliArgs, RuntimeConfig::from_cli"])
p("C66","A message says what is wrong, with which names, in which file",
 "Every message the compiler can print has the severity, headline and advice a catalogue gives for the problem it stands for. The names involved, and nothing else, stand between backquotes, and no two different problems have the same headline. Every message of a run's report tells one of the problems of the catalogue, and that problem is there: the file said to be unreadable or unwritable is so, with the error quoted.",
 "all diagnostics, all names and error texts, all runs",
 "Names, paths and system errors are unbounded; that two texts never coincide is a statement about all pairs.",
 ["src/graphql/ir.rs: impl From<(&str, &Path, Error)> for PrintableMessage","src/graphql/variable.rs: impl From<(&str, &Path, Error)> for PrintableMessage","src/typescript.rs: impl From<Error> for PrintableMessage","src/graphql/schema.rs: parse_schema","src/cli.rs: PrintableMessage","src/graphql.rs: parse_graphql_file, parse_foreign_fragments, compile_global_types_file"])
p("C67","The text of a JSON file is read for what it says",
 "The schema file and the configuration file are read if and only if their text is JSON by the grammar of RFC 8259 and the value says a schema (with types of fields nested at most 120 deep) or a configuration, and then as exactly that: escapes, surrogate pairs and white space included. Strings that are not UTF-8 or have half a surrogate pair are an error, unless they are within something that is ignored. Every JSON value can be written, no text holds two. Any other text is reported, with exit code 1 and nothing written.",
 "all texts (byte strings) of any length and nesting",
 "Texts are unbounded and nested; tests use files written by one tool.",
 ["src/graphql/schema/json.rs: Schema::try_from_reader","src/cli.rs: ConfigFileMatches::from_file_parse"])
p("C68","A release is what its installer expects",
 "Whatever the order in which the archives are listed, and whether or not the file of checksums was listed with them, a release has one archive per supported machine under the name and tag for which the installer of the published package asks; the package records exactly its version and the checksums of these archives. Hence the installer of the published package succeeds on every supported machine with the archive GitHub serves, unpacks exactly the build for that machine, and refuses anything with another hash. Pre-release versions are published as pre-releases on GitHub and under a tag other than latest on npm.",
 "all versions of letters, digits, dots and hyphens; all builds, hash functions, listing orders and redirects",
 "Release scripts run only when releasing; tests do not run them.",
 [".circleci/bin/make-github-release.sh",".circleci/bin/make-npm-release.sh",".circleci/bin/get-release-platforms.sh",".circleci/bin/get-version-from-binary.sh",".circleci/config.yml","pkg/npm/package.json: checksumConfig","pkg/npm/lib/postinstall.js: main, checksum"])
p("C69","A source file is read for the document its text says",
 "A text is read as a document exactly if it is a sequence of ignored text and tokens, with at most 50 brackets open at a time, whose tokens form this document in the grammar of GraphQL (executable definitions), each part with the position where its tokens stand; so a text says at most one document. Spacing, line breaks, commas and comments do not matter: texts with the same tokens are read as the same document up to positions. All names in it are names of GraphQL; hence the guarantees of C56 hold for texts without an assumption on what the parser produces.",
 "all texts, all documents, all checks for numbers and string escapes",
 "Tests parse a few documents; lexical and grammatical corner cases are unbounded.",
 ["src/graphql.rs: parse_graphql_file","Cargo.toml: graphql-parser"])
p("C70","Messages point at the place they are about",
 "Every position that the reader attaches to a part of a document is where that part stands in the text: a field at its alias or name, a spread at the name of the fragment, an inline fragment at the word on (or at its directive or brace), a variable at its dollar sign, a definition at its keyword or brace. Hence every message of the compilation of a file that shows a line shows the line with the given number of the file it names, and its column is that of a part of the document or of the quote of an import line. (False of the code for comments that end in carriage return and line feed, for tabs, and for imported operations.)",
 "all texts, documents, schemas, file systems, hash orders",
 "A test compares a few messages; the relation between positions, lines and columns ranges over all layouts.",
 ["src/graphql.rs: parse_graphql_file, add_imported_fragments, parse_foreign_fragments, compile_file","src/cli.rs: LocationInformation::new_from_contents_and_position, fmt_line_encoding","src/graphql/ir.rs: Error, Warning"])
p("C71","The layout of source files does not show in the output",
 "If two source trees differ only in spacing, line breaks, commas and comments, leaving the import lines at the head of each file as they are, or in arguments, directives and default values, then the run of the compiler ends alike on both: same exit code, same text written to every output file and to the globals file, and the same messages up to the place they show and the parser's own words.",
 "all pairs of file systems related file by file, all schemas, configurations, listings, schedules of the worker threads, hash orders that depend on keys only, write outcomes",
 "A test formats one file in one other way; the claim is about all layouts of all files at once, and about failing runs too.",
 ["src/graphql.rs: compile_file, parse_graphql_file, add_imported_fragments, parse_foreign_fragments","src/graphql/ir.rs: CompileContext","src/worker_pool.rs: WorkerPool::work","src/cli.rs: PrintableMessage"])
p("C72","What a server answers has the type exported for the document, from texts to texts",
 "If qlc, started with some command line over some files, exits with code 0, then for every source file that holds a query, mutation or fragment the text written next to it reads as a TypeScript module that exports a document node; everything this module imports from the globals module is declared by the text written for the globals; and the first type argument of the node, as these two texts together declare it, accepts every response that a server with the schema of the schema file can give to the document.",
 "all command lines, schema texts, document texts, configurations, listings, file systems, numbers of threads, schedules, hash orders; all responses of all servers",
 "A test compares an output with a stored text; nobody evaluates the stored text on responses, and the text of the globals is looked at apart from the modules that import it.",
 ["src/main.rs: main","src/graphql/schema.rs: parse_schema","src/graphql.rs: compile_file, compile_global_types_file, parse_graphql_file","src/graphql/ir.rs","src/typescript.rs: compile_ir, compile_globals","src/worker_pool.rs: WorkerPool::work"])
p("C73","The variables type of a document allows exactly the variables a server takes, from texts to texts",
 "If qlc exits with code 0, then for every source file whose document has variables the text written next to it reads as a module whose exported node has the variables type as second type argument; and this type, as that module and the text written for the globals together declare it, allows a value without undeclared properties exactly if a server with the schema of the schema file takes it as the variables of a request for the document. Documents without variables have the argument never, fragments none.",
 "all command lines, schema texts, document texts, configurations, listings, file systems, numbers of threads, schedules, hash orders; all values, nested to any depth",
 "A test compares the text of a variables type with a stored one; whether a request that type-checks is taken by the server depends on the types of input objects and enums in another file, reached through any number of references.",
 ["src/main.rs: main","src/graphql/schema.rs: parse_schema","src/graphql/variable.rs: try_build_variable_ir","src/graphql.rs: compile_file, compile_global_types_file","src/typescript.rs: compile_variables_type_definition, compile_globals","src/typescript/field.rs"])
p("C74","The exported result type allows exactly the possible responses, from texts to texts",
 "If qlc exits with code 0, then for every source file the first type argument of the node exported by the text written next to it, as that text and the text written for the globals together declare it, allows a value without undeclared properties exactly if a server with the schema of the schema file can give it as the response to the document: nothing that can be answered is left out, and no property, null, literal or combination of keys is allowed that cannot be answered.",
 "all command lines, schema texts, document texts, configurations, listings, file systems, numbers of threads, schedules, hash orders; all values without repeated keys, nested to any depth",
 "A test compares the text of a result type with a stored one. That a type is not wider than the possible responses is a statement about all values it allows, at every depth, for every union of object types, lists and nulls.",
 ["src/main.rs: main","src/graphql/schema.rs: parse_schema","src/graphql/ir.rs","src/graphql.rs: compile_file, compile_global_types_file","src/typescript.rs: compile_ir, compile_globals","src/typescript/field.rs"])
p("C75","The request of the download script is a valid introspection query, and its answer is as good as the schema",
 "The bytes that qlc-download-schema sends are JSON whose query is a valid GraphQL document that asks for the introspection of the schema and for nothing else. With a server that answers it, the script exits with code 0, changes one file, and a run of qlc on that file is the run on any file with the complete introspection of that server's schema.",
 "all server schemas, response texts with these contents (any layout, any further entries), file systems, command lines, schedules; all texts for the quoting of the query",
 "There is no test of the script at all. A test would need a server, and would show one schema; a field missing from the query shows only for schemas that use it, such as deprecated input fields.",
 ["pkg/npm/lib/download.js: introspectionQuery, download","src/graphql/schema/json.rs","src/graphql/schema.rs: parse_schema"])
p("C76","What a client infers from a generated module with DataOf and VariablesOf is right",
 "A client imports the default export of an output and takes DataOf and VariablesOf of its type, with the helper types of the npm package. DataOf allows exactly the values a server can answer the document with. VariablesOf allows the variables of every request that spells them out, and nothing a server refuses; it is never if there are no variables.",
 "all command lines, schema texts, source texts with one query each, file systems, listings and schedules with exit code 0 and the node module of the package; all values",
 "The tests compare output texts and never run the TypeScript compiler; the helper types are in another directory and no test uses them together with an output. A mistake in the keys of a node type turns the inferred type into BasicObject, which accepts everything, silently.",
 ["pkg/npm/lib/typed-documentnode.d.ts: DataOf, VariablesOf, QueryDocumentNode","src/typescript.rs: compile_ir","src/graphql/ir.rs: build_from_operation","src/cli.rs"])
p("C77","A run depends on its sources only, and running again changes nothing",
 "What a run writes and its exit code depend on the sources, their imports, the schema and the configuration only: not on the schedule, the number of workers, the order of the listings, or other files. A run changes no file but outputs and the file of globals. Running again on what a run has left, with its outputs now in the listings, gives the same exit code and changes no file, whether or not the first run failed. The messages of two such runs are the same up to order, but for the reason told of a directory in which several entries cannot be read, and for the one message of why the module of globals could not be made.",
 "all command lines, schema texts, source texts, file systems, listings, hash orders and schedules of the two runs, all exit codes",
 "Each test runs the command once, in a fresh directory. A run that reads an output of an earlier run, or leaves a file half written for the next, is not noticed; the order of a listing is that of one file system.",
 ["src/main.rs: main","src/cli.rs: RuntimeConfig","src/graphql.rs: compile_file, compile_global_types_file","src/worker_pool.rs"])
p("C78","How a run can end",
 "If no source imports itself, directly or not, no import lacks its closing quote, no spread fragment leads back to itself and no input object that is used contains itself, then a run never panics or overflows the stack, can always be continued to an exit, and with one worker exits after a number of steps that depends on the files only. Conversely an exit tells that each parseable source meets the first three, and exit code 0 that used input objects do not contain themselves; a panic tells of an import without closing quote. The depth of recursion given to the model does not matter once it suffices.",
 "all configurations, schemas, file systems, listings, documents, hash orders, schedules and numbers of workers",
 "Whether a program ends on all inputs cannot be tested, and the tests hold no cyclic inputs.",
 ["src/main.rs: main","src/graphql.rs: compile_file, add_imported_fragments, compile_global_types_file","src/graphql/ir.rs: collect_fields_from_selection_set","src/typescript.rs: add_sub_input_objects","src/worker_pool.rs"])
p("C79","Exactly the valid projects compile",
 "Call a project valid if every directory can be read, every output can be written, and every source holds one document, a named query or mutation or a fragment; whose imports end, are closed, exist and lead to fragments only; which selects existing fields and imported fragments, leaves without and composites with selections; and whose variables have existing input types that do not contain themselves, in lists of one level. A run on a valid project ends with exit code 0, and exit code 0 tells that the project is valid.",
 "all configurations, schemas, file systems, listings, documents, hash orders and schedules; the equivalence with one worker",
 "The fixtures show a few valid documents compile; none shows that all do, nor that nothing invalid is accepted.",
 ["src/main.rs: main","src/graphql.rs: compile_file, add_imported_fragments, compile_global_types_file","src/graphql/ir.rs: compile, collect_fields_from_selection_set","src/graphql/variable.rs","src/typescript.rs: compile_ir, compile_globals"])
p("C80","An output depends on its source and what that imports, and on no other file",
 "In two runs with the same configuration and schema over possibly different trees, a source that has the same contents in both, as do the files it imports directly or not, gets the same output, whatever the other files hold and even if the other files make one of the runs fail. After a successful run, editing, adding or removing files changes no output of a source that does not reach them, and if the next run fails, it reports an error of a source that reaches a changed file, or of the globals file.",
 "all pairs of file systems and listings that agree on one source and its imports, all schedules, configurations, schemas and parsers",
 "Tests compile whole fixed directories; they do not vary the rest of the tree around a file.",
 ["src/graphql.rs: compile_file, add_imported_fragments","src/main.rs: main","src/worker_pool.rs: WorkerPool"])
p("C81","Additions to the schema leave the outputs as they are",
 "If the introspection result gets new types, new fields of objects and interfaces, another order of input fields or enum values, or other descriptions of types that are not enums, every valid project stays valid, its runs still end with exit code 0, and every output and the globals file is left the same, byte for byte, by one worker or by several over a flat tree (others may leave sources out, C36). (For projects whose fields under one response key agree in type, documentation and deprecation, as the output of others depends on hash order.)",
 "all introspection results and all additions of this form, all valid projects, schedules, fuels and map orders",
 "Tests use one fixed schema; none compares two schemas.",
 ["src/graphql/schema.rs: Schema, parse_schema","src/graphql/ir.rs: compile, collect_fields_from_selection_set","src/typescript.rs: compile_ir, compile_globals","src/main.rs: main"])
p("C82","Where a fragment is spread, the response has the type exported for the fragment",
 "After a run with exit code 0, take any source and any fragment file it imports, directly or through others. In every response of a server to that document, every object for which the fragment is executed, at any depth and through inline fragments and other spreads, is a value of the type that the output of the fragment file exports. So a component typed by its fragment can be handed that part of the data of every query that spreads it.",
 "all projects, documents, fragments, responses and places in them (the fragment's own selections regular and unconditional)",
 "Tests compare the text of single outputs; none relates the output of a query to that of a fragment.",
 ["src/graphql/ir.rs: compile, collect_fields_from_selection_set","src/typescript.rs: compile_ir","src/graphql.rs: compile_file, add_imported_fragments"])
p("C83","The type of a query is assignable to the type of a fragment where it is spread",
 "After a run with exit code 0, take any source and any fragment file it imports, directly or through others, and any path of keys along which the source spreads the fragment for every object type an object there can have. Whatever value the type exported for the source accepts, its objects along that path (in all items of lists) are accepted by the type exported for the fragment, whatever the names from elsewhere mean. This is about the types alone, not about what servers return: a TypeScript program that passes that part of a query's result to something typed by the fragment is well typed.",
 "all projects, documents, fragments, paths, values and meanings of the names from elsewhere (both documents regular, one key for __typename)",
 "Tests compare the text of single outputs; none relates the type of a query to that of a fragment, and assignability is about infinitely many values.",
 ["src/graphql/ir.rs: compile, collect_fields_from_selection_set","src/typescript.rs: compile_ir, compile_globals","src/graphql.rs: compile_file, add_imported_fragments"])
p("C84","How a request is divided into fragments and files does not show in its module",
 "Two projects with the same schema and options, both compiled with exit code 0. A source of the one and a source of the other, with the same kind, name, type condition and variables, that collect the same fields for every object type at every depth, each with the fragments it imports: the output files are the same, byte for byte. If every source of either has such a counterpart in the other, the files of globals are the same as well. In particular fragments may be renamed, written inline, extracted, merged, moved to other files and imported through others, and the source itself may be moved.",
 "all pairs of projects, sources, fragment maps, schedules and hash orders",
 "Refactorings relate two projects of any size; tests compile one fixed set of files, and each has its own expected output.",
 ["src/graphql/ir.rs: compile, collect_fields_from_selection_set","src/typescript.rs: compile_ir, compile_globals","src/graphql.rs: compile_file, add_imported_fragments"])
p("C85","Every way into the installed package leads to the build for the machine",
 "Once the package of a release is installed on a supported machine, the path that the package exports and the file linked as the command qlc are one and the same file; it is the build of that release for that machine, and executable. Nothing else in the file system has changed, and the archive is gone. If what is served does not verify, the installation fails and no file but the archive is touched. Exactly the package itself and its typed-documentnode can be imported, exactly the commands qlc and qlc-download-schema exist, and the files behind all of them, with their declarations, are published. The default import of the package is a string, as declared.",
 "all releases, machines, directories of installation (of any depth), file systems, redirects and served archives; all ways of importing",
 "Nothing in the repository tests the package; it works only after a release and an installation.",
 ["pkg/npm/lib/index.js","pkg/npm/lib/index.d.ts","pkg/npm/lib/postinstall.js: BIN_PATH, main, untar","pkg/npm/package.json: exports, bin, files, types, scripts","pkg/npm/bin/qlc-download-schema"])
p("C86","Options change only what they are for",
 "Two runs on the same files with the same root directory, import prefix and schema, whatever the other options, the numbers of threads and the schedules, have the same exit code and write the same files (the module of globals under its own name). The texts are the same but for the places that the options are for: readonly after the indentation of a property, the text that stands for a custom scalar, and the names of the modules of documents and of globals in imports. Each of these places differs only if its own option does: with the same options of this kind the texts are equal. The messages are the same but for warnings of deprecated fields, which only appear if asked for, and are the same if both runs ask for them, and but for the last one if the module of globals could not be made (in both runs then).",
 "all schemas, source trees and documents; all pairs of settings; all numbers of threads and schedules; on command lines and texts of files in C86_text_partial",
 "Tests pin the output for a few settings; that nothing else depends on a setting would need every pair of settings on every input.",
 ["src/cli.rs: RuntimeConfig","src/graphql/ir.rs: compile, collect_fields_from_selection_set","src/typescript.rs: compile_ir, compile_globals","src/graphql.rs: compile_file","src/main.rs: main"])
p("C87","Renaming a document renames its types and nothing else",
 "For every query, mutation or fragment there is one text with places for a name, such that under every name the generated module is that text with the name in these places; the warnings, and the types it needs from the module of globals, do not depend on the name. A document that is rejected is rejected under every name with the same errors. In projects where any documents are renamed, fragments along with their spreads, every output differs in the name of its own document only (so that the new name of a fragment shows in no other output), and the module of globals is the same.",
 "all documents, schemas, fragments, options and hash orders; all names; all pairs of projects with renamed documents, schedules and numbers of threads",
 "A test checks a few names; that nothing else depends on the name of a document is about all names.",
 ["src/typescript.rs: compile_ir, type_definitions_from_complex_ir, compile_variables_type_definition","src/graphql/ir.rs: compile, build_from_operation","src/main.rs: main"])
p("C88","Selecting more gives a type that is assignable to the type before",
 "Let one document select all that another selects: for every object there can be, a field of the same type under the same key, and of it all that the other selects. It is so when anything is added anywhere to a document and to its fragments. Then every value that the type exported for it accepts is accepted by the type exported for the other, whatever the names from elsewhere mean. So a TypeScript program that uses the result of a query remains well typed when selections are added, reordered, or moved into fragments.",
 "all pairs of projects before and after, or pairs of documents of one project, with the same schema and options; all documents, fragments, values and meanings of the names from elsewhere",
 "A test compares a few texts; this is about all values of the types of all pairs of documents.",
 ["src/graphql/ir.rs: compile, collect_fields_from_selection_set","src/typescript.rs: compile_ir, type_definitions_from_complex_ir","src/main.rs: main"])
p("C89","A schema that promises more gives a type that is assignable to the type before",
 "Let a schema be changed so that it promises more about responses: types and fields are added, types of fields get non-null marks, values are taken from enums, object types vanish from everywhere. Let documents be changed so that they select more (C88). Then every value that the type exported for a document after the change accepts is accepted by the type exported before, whatever the names from elsewhere mean. So a TypeScript program that uses the result of a query remains well typed.",
 "all pairs of projects before and after with the same options; all schemas, documents, fragments, values and meanings of the names from elsewhere",
 "A test compares a few texts; this is about all values of the types from all pairs of schemas and documents.",
 ["src/graphql/schema.rs: Schema, parse_schema","src/graphql/ir.rs: compile, collect_fields_from_selection_set","src/typescript.rs: compile_ir, type_definitions_from_complex_ir","src/main.rs: main"])
p("C90","Callers stay well typed when variables and input types require less",
 "Let the variables of a document and the input types of a schema be changed so that they require less: variables and input fields lose non-null marks or are added as nullable ones, enums get more values, types are added. Then every value that the variables type exported before the change allows is allowed by the variables type exported after it, no property being allowed that is not declared. In any case a value allowed by both has all variables that one of them requires and only variables of both, so that a new required variable, or a variable that is gone, breaks its callers.",
 "all pairs of projects before and after with the same options; all schemas, documents with variables, values, and meanings of the names from elsewhere",
 "A test compares a few texts; this is about all values of the variables types from all pairs of schemas and documents.",
 ["src/graphql/schema.rs: Schema, parse_schema","src/graphql/variable.rs: try_build_variable_ir","src/typescript.rs: compile_ir, compile_variables_type_definition, compile_globals, input_def_from_type","src/main.rs: main"])
p("C91","Code that uses a query by the helper types survives changes for the better",
 "Let a project be changed, documents or schema, and let qlc run before and after with the node module of the package. For a client that imports the default export of the output of a query: if the second query is answered with more than the first (C89), whatever DataOf accepts after the change it accepted before, so that code reading responses stays well typed; if less is required of the variables (C90), whatever VariablesOf allowed before the change it allows after it, so that code making requests stays well typed. A query without variables gives never before the change.",
 "all pairs of projects before and after with the same options; all command lines, schema texts, document texts, values, and meanings of the names from elsewhere",
 "A test compares a few modules of a few projects; this is about all clients of all queries before and after all such changes.",
 ["src/main.rs: main","src/typescript.rs: compile_ir, compile_globals","src/graphql/schema.rs: Schema, parse_schema","pkg/npm/lib/typed-documentnode.d.ts: DataOf, VariablesOf, QueryDocumentNode"])
p("C92","The order in which the introspection result lists things does not show",
 "Let two introspection results declare the same types, listed in another order, with fields, input fields, enum values and possible types listed in any order. Then one can be loaded exactly if the other can, the same projects are valid, a run exits with 0 with one exactly if a run does with the other, and every output and the globals file is left the same, byte for byte.",
 "all introspection results and all orders of their lists, at every level; all projects, schedules and map orders",
 "Tests use one schema file; the lists of a schema have more orders than can be tried.",
 ["src/graphql/schema.rs: Schema, parse_schema","src/graphql/ir.rs: compile, collect_fields_from_selection_set","src/typescript.rs: compile_ir, compile_globals","src/main.rs: main"])
p("C93","Operations and fragments can be renamed throughout a project",
 "Let all documents of a project get new names, fragments together with all their spreads, no two fragments getting the same name, with the import lines as they were. The project is valid under the new names exactly if it was under the old ones, and a run exits with 0 exactly if one did before. Each output then differs in the name of its own document only: the new name of a fragment shows in no module but its own, and the module of globals is the same, byte for byte.",
 "all projects, all one-to-one renamings, arbitrarily nested imports and spreads; all schemas, schedules and map orders",
 "Tests rename a document of an example; that names have no other effect is about all projects and all names.",
 ["src/graphql.rs: compile_file, add_imported_fragments","src/graphql/ir.rs: compile, collect_fields_from_selection_set","src/typescript.rs: compile_ir, compile_globals","src/main.rs: main"])
p("C94","Descriptions and deprecations of a schema change comments and warnings only",
 "Let two introspection results differ in descriptions of types and fields and in marks of deprecation only. Both are refused for the same reason or both are read, with the same types. A project is valid with one exactly if it is with the other, and a run exits with 0 exactly if one does with the other. Every file the run leaves is then the same, or has a text that reads as the same TypeScript statements, and only outputs and the globals file differ.",
 "all pairs of introspection results, all projects, all texts of descriptions that do not end a comment; all schedules and map orders",
 "Tests compare one output with one text; that documentation never leaks into types is about all schemas and all descriptions.",
 ["src/graphql/schema.rs: parse_schema, Schema","src/graphql/schema/field.rs: Field","src/typescript.rs: compile_ir, compile_globals, compile_documentation","src/graphql/ir.rs: compile","src/main.rs: main"])
p("C95","Unions are told apart by __typename",
 "Let a selection ask for __typename under some response key whatever the type of the object is. Then the exported type is a discriminated union: each alternative declares that key as a union of string literals, the names of all types the object can have occur, each in exactly one alternative, and each alternative has exactly the properties asked of its types. A value that the union accepts has one of these names under the key, and comparing the key with a name leaves exactly the alternative of that name. The same holds for every selection nested in an alternative.",
 "all schemas, all regular documents at every depth, all response keys __typename is asked for under, all values",
 "Tests compare texts of unions with two or three members; that the literals partition the possible types at every place is about all schemas and selections.",
 ["src/graphql/ir.rs: collect_fields, compile","src/typescript.rs: type_definitions_from_complex_field_collection, type_definitions_from_complex_ir, compile_ir"])
p("C96","Source files can be moved, if their import lines follow",
 "Move source files to other directories, or the whole project elsewhere, and rewrite their import lines, in any order, so that they lead to the same files as before; the root directory and the prefix of import lines may be set to others. The project compiles if and only if it did. Each output is beside its source's new place and is the same byte for byte, and so is the module of global types.",
 "all projects, all moves of their files and rewritings of their import lines, all schemas, all runs of valid projects",
 "Tests have one arrangement of files each; which paths an import line can lead to, and that no output depends on where its source is, is about all trees.",
 ["src/graphql.rs: compile_file, add_imported_fragments","src/typescript.rs: compile_ir, compile_globals","src/main.rs: main"])
p("C97","Import lines that are not needed can be left out",
 "Leave out import lines of source files, as long as each document still imports, directly or not, the fragments it spreads, those that these spread, and so on. A project that compiled compiles, every output is the same byte for byte, and so is the module of global types.",
 "all projects, all choices of import lines to leave out, all schemas, all runs of valid projects",
 "Tests import what they use; that nothing else about an import shows in an output is about all trees of imports.",
 ["src/graphql.rs: compile_file, add_imported_fragments","src/typescript.rs: compile_ir, compile_globals","src/main.rs: main"])
p("C98","Source files that nothing else needs can be deleted",
 "Delete source files, and the import lines that lead to them, as long as each document that stays still imports the fragments it needs. A project that compiled compiles, the output of each source that stays is the same byte for byte, and the module of global types has the same definitions in the same order, some left out.",
 "all projects, all choices of files to delete, all schemas, all runs of valid projects",
 "Tests compile projects of their own; that a file shows in no other output, but for the shared module, is about all pairs of projects.",
 ["src/graphql.rs: compile_file, add_imported_fragments","src/typescript.rs: compile_ir, compile_globals","src/main.rs: main"])
p("C99","Source files can be added",
 "Add source files that are valid. A project that compiled still compiles, the output of each former source is the same byte for byte, and the module of global types has the former definitions, in the same order, with others between them at most.",
 "all projects, all files that are added, all schemas, all runs of valid projects",
 "Tests compile projects of their own; that a further file shows in no other output, but for the shared module, is about all pairs of projects.",
 ["src/graphql.rs: compile_file, add_imported_fragments","src/typescript.rs: compile_ir, compile_globals","src/main.rs: main"])
with open('/verif/properties.jsonl','w') as f:
    for x in P: f.write(json.dumps(x)+"\n")
print(len(P))
