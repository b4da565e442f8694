# Formal model of qbs in Rocq: design

The code under `/repo` is read as text only. Everything below describes a model written by hand from that
text, function by function, and theorems about that model.

## Layout

Each area `X` of the code base has up to four files in `rocq/theories`:

* `XModel.v`: total, computable functions; each definition cites the file and lines it models and says
  what is simplified. No proofs.
* `XSpec.v` (or a `Spec` section at the top of the theorem file): the independent specification, written
  without the helpers of the model.
* `XProofs.v` (or several files such as `XBase.v`, `XInv.v`): lemmas.
* `XTheorems.v`: the property theorems, each closed with `exact`, followed by `Print Assumptions`,
  and a concrete example that meets the hypotheses of the theorem.

Strings are lists of `N` code units (UTF-16 units for `QString`,
bytes for `QByteArray` and `std::string`).

## Conventions

* A function of the code that throws becomes a function into a result type with an explicit error case.
* Undefined behaviour and failed assertions are explicit outcomes as well.
* Loops without an obvious measure take fuel; running out of fuel is an explicit outcome and theorems
  either exclude it or prove that the fuel given is enough.
* Where the code leaves an order unspecified (pointer order in sets, hash order, scheduling), the model
  takes the order as input and theorems quantify over it.
* A property that the faithful model violates is proved as `..._refuted` with a concrete witness, and the
  strongest true variant is proved as `..._partial`.

## Plan per property

| id | modelled | proof |
|----|----------|-------|
| C01–C08 | the executor as a state machine: nodes, build states, leaves queue, available and processing jobs, job pools; operations are job completions (with success or error), cancellation and scheduling | invariants by induction over operation sequences; liveness by a decreasing measure on acyclic graphs |
| C09 | `isUpToDate`, `mustExecuteTransformer` over timestamps | exact characterisation (iff) |
| C10, C11 | executor decisions plus a file-content semantics of commands | invariant relating timestamps and contents, by induction over builds |
| C12 | `setupAuxiliaryProducts` | reachability characterisation |
| C13 | `JobLimits`, `setupJobLimits` | case analysis on finite maps |
| C14 | `connect`, `safeConnect`, `existsPath`, `disconnect` | invariant over operation histories |
| C15 | `CycleDetector`, `findPath` | DFS invariants; refutation of the path report if a witness exists |
| C16 | `RuleGraph::build`, `CreateRuleNodes` | iff characterisation, DFS invariants |
| C17 | lookup table operations | invariant over histories |
| C18 | artifact-by-tag map | invariant over histories |
| C19 | artifact removal | invariant, closure characterisation |
| C20, C28 | path functions | string lemmas |
| C21, C22 | persistent pool encoder and decoder | round trip by simultaneous induction with an interning invariant |
| C23, C24 | write sequences with crash points | prefix induction |
| C25 | sorted vector set | refinement to membership predicates |
| C26, C27 | versions | order laws, parser/printer round trip |
| C29, C49 | install path computation | string lemmas, refutations where a witness exists |
| C30, C31 | directory tree model | tree induction |
| C32, C33 | quoting functions, separate tokenizer specification | round trip by induction |
| C34–C36 | parsers as state machines fed with chunks | fragmentation independence by induction |
| C37 | change set | permutation/offset argument |
| C38, C39 | profile and settings lookup | chain induction |
| C40 | multiplex table | cartesian product characterisation |
| C41 | change tracker comparisons | iff characterisation |
| C42 | resolution, caches and worklist of the dependency scan | worklist invariant with explicit bound, refinement to inductive reachability |
| C43 | pkg-config parser | round trips |
| C44 | literal printer with a separate literal reader | round trip |
| C45 | `RuleNode::apply` decision | set characterisation |
| C46 | candidate merging | permutation invariance |
| C47 | launcher handler state machine | invariant over event sequences |
| C48 | rescue decision | implication proof |
| C61 | loading the modules of a product as a stack machine | invariant with a history variable, explicit bound |
| C62 | required and optional modules, probes, validation, presence | refinement to inductive definitions of broken and alive |
| C63 | narrowing of version ranges, choice between module files | invariant; lexicographic order |
| C64 | length of the longest chain of Depends items | invariant; counterexample for the general case |
| C65 | lexer and scanner for C++ files on bytes; grammar of lines with all lexical elements | termination; induction over lines with a lexer lemma per lexical element; counterexamples outside the grammar |
| C66 | the same, module and import declarations | the same |
| C67 | `expandPatterns` on a tree of files | induction on the components of the pattern, against an inductive matching relation |
| C68 | `resolveGroupFully`, `createSourceArtifact` on a tree of groups | induction on the tree; flattened list of groups in their places |
| C69 | `applyFileTaggers`, `fileTagsForFileName`, `finalizeArtifactProperties` | sorting and the loop against the set of matching taggers of highest priority |
| C70 | the scheduler and the threads as one transition system | invariant for all projects; a lexicographic measure falls with each step; progress from the invariant |
| C71 | same | counts of the places of a product as an invariant, for projects without cycles; counterexample with a cycle |
| C72 | same | invariant about names that are still to come; descent along the order of finished products; only products with types in front cannot be deferred |
| C73 | the resolver as any program of questions; what it records; `trackProjectChanges` as a decision | same answers to all recorded questions if kept, then induction on the program; counterexamples for what is not recorded |
| C74 | same | each check is false if its answers are the same |
| C75 | comparing products, closure over dependencies | comparisons against multisets; invariant of the depth-first closure on ranked graphs |
| C76 | moving of build data in `trackProjectChanges` | case distinction against membership; counterexample for products that stay disabled |
| C77 | `updateProductAndRulePointers`, `provideFullFileTagsAndProperties` | from the comparisons, where keys are distinct and one filter fits; counterexamples otherwise |
| C78 | `resolveProbe` with its three sources of results, over a sequence of runs; scripts as any programs | invariant: each stored result is that of a script run in some earlier run; same outcome from imported files that are not newer; counterexamples for what is not compared |
| C79 | same | invariant about the probes of the present run; a stored result always matches its own item |
| C80 | lookup over prototypes and parent, stack of properties being evaluated, pending errors | the stack holds distinct properties out of a finite set; soundness by induction on the fuel; completeness by least heights of a reference evaluator |
| C81 | cache per item, series of evaluations | the cache holds only meanings, invariant over all evaluations without errors |
| C82 | changing a property, the items that depend on changed ones, purging | the meaning of an item's properties depends only on items reachable over its modules |
| C83 | stack of requested properties, record of dependencies, map of the product, properties to evaluate again, map of a group | invariant: cached module properties have all the scripts they ask recorded; what is not reached from the set properties runs the same in the group |
| C84 | cache of module providers, search for their files, stored results | invariant on the cache over all requests and histories of runs; counterexamples for own search paths and changed files |
| C85 | the same, with a record of the runs | invariant: keys run are distinct and not stored |
| C86 | output directories, dry runs and their cleanup | invariant over histories without dry runs; exact effect of a dry run; counterexample |
| C87 | tables of options, option lookup, groups, assignments, the parsing loop | induction on a weight of the remaining arguments: equivalence with a grammar; termination |
| C88 | sections of assignments, merging of global ones, repeated names | induction over the assignments against a declarative last-assignment spec; counterexamples |
| C89 | dispatch to commands, switches for help and version | case analysis on top of C87; counterexamples |
| C90 | the objects of a job that run commands, as a machine over all events | `command_verdict_partial`, `process_success_partial` by an invariant over all histories; refuted in full: `timeout_sticks_refuted`, `start_error_sticks_refuted`, `script_timeout_sticks_refuted`, `watchdog_stays_refuted`, `crash_succeeds_refuted` |
| C91 | the same machine | `command_once` (all histories), `command_ends_partial`, `results_reported_partial`; refuted in full: `command_hangs_refuted`, `unstarted_hangs_refuted` |
| C92 | the same machine | `commands_in_order`: what one sees is a course of the list, an inductive description of its own |
| C93 | modules of a product and the running of their environment scripts | `scripts_once_in_order` by induction over the topological sorting, `no_scripts_no_change`; refuted for modules of the same name: `same_name_script_lost_refuted` |
| C94 | the entries of a command and merging them into an environment | `command_environment_partial` by induction over the list; refuted for empty values: `command_environment_refuted` |
| C95 | the lookup of programs in PATH with the cache of the product | `right_programs_partial` by induction over all sequences of lookups; refuted in full: `other_working_directory_refuted`, `installed_later_refuted` |
| C96 | the response file and the arguments that are passed | `response_file_partial` against a relation for what a tool sees, `response_file_windows_partial`, `response_file_used`; refuted in full: `response_file_backslash_refuted`, `response_file_caret_refuted`, `response_file_prefix_refuted` |
| C97 | the places of a dependency, their sorting and the merging of trees of parameters | `parameters_right`, `parameters_conflict_reported`, `parameters_message` by an invariant over the merged prefix, `parameters_merged_partial`, `parameters_of_one_place`; refuted in full: `parameters_merged_refuted`, `parameters_undefined_refuted`, `parameters_clash_refuted` |
| C98 | the canonical list of toolchains | `toolchains_exact` against an inductive relation of families, `toolchains_order`, `toolchains_idempotent`, `toolchains_documented`, `toolchains_special_first_partial`; refuted for one toolchain: `toolchains_special_first_refuted` |
| C99 | the session as a step function over requests and ends of jobs | `session_conversation` by an invariant of the pending request, `session_no_extra_replies` by counting, `job_accepted`, `job_undisturbed`, `run_environment_reply`; for clients that do not wait, refuted: `one_reply_each_refuted`, `released_job_refuted` |
| C100 | the updates of files over an abstract project file | `add_files_exact`, `remove_files_exact` by induction on the files, `rename_file_partial`, `only_updates_change_files`; refuted: `dependencies_error_refuted`, `rename_failed_refuted` |
| C101 | the selection of products in a tree of projects | `selection_partial` (the search of the tree is the search of the list of all products); refuted: `unknown_products_refuted`, `no_products_refuted` |
| C102 | project data in replies | `client_data_partial` by an invariant that relates the last data sent with the state; refuted in full: `failed_build_data_refuted`, `prefix_data_refuted`, `properties_data_refuted` |
| C103 | the text written for the list of files; a separate reader of array literals as specification | `files_added_to_array`, `texts_kept`, `files_added_to_string`, `files_added_to_expression`, `files_removed_if_there`, `add_then_remove` by induction on the lists, `array_unique`; refuted for names with quotes or backslashes and with line breaks: `files_removed_refuted`, `file_with_line_break_refuted` |
| C104 | line endings, the finding of an item by its place, the edit of its binding | `only_binding_changed`, `rest_of_file_kept`, `endings_kept`, `guess_windows`, `guess_unix`; refuted for mixed endings and for places from before an earlier change: `rest_of_file_refuted`, `stale_place_refuted` |
| C105 | the text of new items | `new_names_partial`; refuted for names with quotes: `new_names_refuted` |
| C106 | the tree of overridden values and its application to projects, products and modules; a relation between items before and after as specification | `overrides_exact` by an invariant of the tree over the values and composition of overrides; refuted for products with dots in their names and for the prefix project: `one_property_refuted`, `top_level_only_refuted`, `top_level_property_refuted` |
| C107 | the checks of the keys | `wrong_overrides_reported`, `right_overrides_accepted_partial` from an exact description of all errors; refuted: `dotted_product_refuted`, `renamed_product_refuted`, `wrong_overrides_refuted` |
| C108 | the parameters with their caches as a state with operations | `trees_read_current`, `final_read_current_partial` by invariants over the operations, `final_values_exact`; refuted: `final_read_refuted` |
| C109 | the table of aliases and the two functions | `canonical_exact`, `canonical_idempotent`, `canonical_apart`, `target_same_partial`, `target_endianness`, `target_names`; refuted: `capitals_refuted`, `target_same_refuted` |
| C110 | how the architecture of a compiler is named, taken apart and compared | `native_compilers_exact`; refuted for all cross compilers: `cross_compilers_refuted`, `compilers_found_refuted` |
| C111 | the recursion with a depth | `os_identifiers_end`, `os_identifiers_closed`, `os_families` for all names by the finite set of names with parents |
| C112 | the mapping of characters | `identifier_exact`, `identifier_idempotent`, `rfc1034_partial`; refuted: `rfc1034_refuted` |
| C113 | `escapedString` for UTF-16; a relation for how compilers read literals as the specification | `quoted_denotes_cpp`, `quoted_denotes_c_partial`, `reading_unique`, `quoted_injective`, `quoted_one_line`, `quoted_unchanged_exact`, `quoted_trigraphs_partial`; refuted: `quoted_not_printable_refuted`, `quoted_trigraph_refuted` |
| C114 | the text that `mergeCFiles` writes; a relation for the names in include lines as the specification | `combined_includes_partial`, `includes_unique`; refuted: `combined_backslash_refuted` |
| C115 | `getHash` with the hash function as a parameter, file paths of object files | `hash_shape`, `hash_same_exact`, `hash_latin1`, `object_files_partial`; refuted: `object_files_refuted` |
| C116 | the conversions between values of JavaScript and variants for trees of values, what is stored for a property | `transfer_exact` by induction on values, `transfer_stable`, `rules_see_values_partial`, `rules_see_undefined`, `long_exact`; refuted: `rules_see_numbers_refuted`, `rules_see_null_refuted`, `rules_see_texts_refuted` |
| C117 | the conversion to the declared type in both modes, with errors | `single_value_exact`, `list_value_exact`, `list_error_exact`, `bool_value_exact`, `value_has_type_partial`, `convert_idempotent`, `parts_converted`, `paths_resolved`, `undefined_stays`, `undefined_variant`; refuted: `int_values_refuted` |
| C118 | the check of what is stored | `allowed_values_exact`, `allowed_undefined`; refuted: `allowed_paths_refuted`, `allowed_none_refuted` |
| C119 | the makefile generator on Unix: quoting, the replacing of directories, the definitions and the lines of commands; specification: how make expands and the shell splits a line | `definitions_read`, `make_runs_command_partial` by induction over the references in a text, `unrelated_commands_same`; refuted: `make_runs_references_refuted`, `make_runs_quote_refuted`, `make_runs_dollar_refuted`, `make_runs_flags_refuted`, `make_runs_newline_refuted`, `moved_sources_refuted` |
| C120 | the targets of products | `product_targets_partial`, `product_variants_exact`, `product_target_kept`, `product_target_good`, `product_read_partial`; refuted: `product_targets_refuted`, `product_variants_refuted`, `product_named_all_refuted`, `product_line_refuted` |
| C121 | the lines of rules; specification: how make reads lists of files | `rule_names_exact`, `rule_files_moved`, `rule_read_partial`; refuted: `rule_read_refuted` |
| C122 | the lines for installing, removing and creating directories | `clean_runs_partial`, `mkdir_runs_partial`, `install_runs_partial`; refuted: `clean_runs_refuted`, `install_runs_refuted` |
| C123 | the constructor and destructor of the locker as steps of processes on a tree of files | `lock_is_exclusive`, `held_directory_stays` by an invariant over all sequences of actions, `lock_refused`; without working locks of open files refuted: `lock_other_host_refuted`, `lock_removal_race_refuted` |
| C124 | as C123 | `lock_available`; refuted: `lock_race_refuted`, `lock_own_pid_refuted`, `lock_wait_refuted` |
| C125 | the directory manager of the locker | `cleanup_only_created`, `cleanup_removes_empty`, `cleanup_restores` by induction over the path, `cleanup_warning_partial`; refuted: `cleanup_warning_refuted` |
| C126 | resolving JobLimit items of products, projects and modules and merging them; specification: the documentation as a relation on lists of numbers | `product_job_limits_partial` by induction over the items, projects and modules, `product_job_limits_errors`, `gives_total`; refuted: `product_job_limits_refuted` |
| C127 | the parser of the option, for any reader of numbers | `limits_option_exact` (both directions); refuted: `limits_option_negative_refuted` |
| C128 | the map of prefixes and the mapping of values | `text_mapped`, `becomes_unique` (the order of keys is by length among the prefixes of one text), `texts_mapped`, `lists_mapped`, `names_kept`, `values_unchanged`, `prefix_never_applied` by induction over values; refuted: `nested_prefix_refuted`, `variant_list_refuted`, `single_text_refuted` |
| C129 | the renaming of sub-projects, for every order of the set of projects | `sub_names_unique`, `all_sub_names_unique`; the number of rounds is bounded because each one adds a name of the same project to those taken; refuted: `sub_names_order_refuted` |
| C130 | reading the members and Properties items of one file, inheriting, initial values of built-in types | `inherited_value`: refinement to a function that adds one layer per file, by induction over files, names and members; `base_is_not_initial_refuted` tells what base is directly on top of a built-in type |
| C131 | the same | `second_value_refused_partial` (a name stays taken while members are read); refuted: `written_value_lost_refuted`, `value_lost_to_properties_refuted`, `inherited_parts_lost_refuted`, `two_otherwise_refuted` |
| C132 | the same, with declarations | `read_only_kept_partial` by induction over the files in between; refuted: `read_only_forgotten_refuted` |
| C133 | the same, with declarations and children | `declaration_farthest_up_wins`, `children_of_the_base_first` by induction over files |
| C134 | the traversal of dependencies for the linker with its tables of public and private libraries and of known files | invariant over the traversal (which products are done, which files are there), by induction over the tree: `all_libraries_linked`, `only_those_libraries`, `libraries_once`, `variants_not_linked`; refuted for object libraries: `object_library_dropped_refuted` |
| C135 | the same | the same invariant, with the order of files: `libraries_in_order`, `externals_come_last` |
| C136 | the same, and the loop that writes the arguments | `whole_archive_from_dependency`, `whole_archive_agreed`, `whole_archive_flags_exact` (against a reader of the arguments); refuted if dependencies disagree: `whole_archive_ignored_refuted` |
| C137 | the traversal of dependencies in cpp.js with its tables of seen products and object files | invariant with the products being looked at as a parameter, by induction over the tree: `msvc_all_libraries`, `msvc_only_those`, `msvc_objects_once`, `msvc_variants_not_linked`, `msvc_whole_archive_agreed`; refuted if dependencies disagree: `msvc_whole_archive_ignored_refuted` |
| C138 | the traversal of C134, the part below shared libraries | an invariant with an inductive predicate for products of which all shared libraries next to them are known: `indirect_libraries_found`, `indirect_libraries_only`, `linked_not_indirect` |
| C139 | the progress bar as a writer of characters, and the sums over jobs | against a model of a terminal with cursor, backspace and line ends: `progress_shown` and `next_progress_shown` for all sequences of values, `bar_not_too_long` also if the maximum changes, `build_progress_waits` and `build_progress_shown` for all interleavings of jobs; refuted: `progress_of_nothing_refuted`, `progress_growing_maximum_refuted` |
| C140 | the table of code links and the lookup in it, with the iteration order as an input | `positions_in_reading_order`; `goto_finds` by an invariant of the table over all sequences of links, `goto_independent_of_order`, for ranges that do not overlap at the position; refuted for nested ranges: `goto_order_matters_refuted` |

## Trusted base

Coq 8.16.1's kernel. The assumptions of every theorem are printed by `Print Assumptions` in the theorem
files. The hand-written correspondence between the C++ text and the model is trusted; it is documented
definition by definition. Not modelled: Qt, the operating system, the QML/JavaScript engine and file
system behaviour, except where a model below states its assumptions about them explicitly.

## What is modelled, area by area

### Executor (C01–C08): `Executor*.v`

Modelled: `buildgraph/executor.cpp` and `executorjob.cpp` as a state machine with one step per event the
executor's thread handles: taking one leaf off the queue (`scheduleJobs`, `executeRuleNode`,
`potentiallyRunTransformer`, `runTransformer`, `finishTransformer`, `finishNode`, `updateLeaves`), the end
of the scheduling loop, the end of a command, the arrival of a job's finished signal
(`onJobFinished`, `finishJob`), and the periodic cancellation check. Inputs: which leaf has the highest
priority, the outcome of commands, whether a transformer is up to date, exceptions thrown by helper
functions, and the new graph a rule application produces.

Assumed about rule applications (`admissible` in `ExecutorSpec.v`): they remove only artifacts whose rule has
not been applied yet, create artifacts of the applied rule, and add edges only at the rule node and at
nodes that directly depend on it. The liveness theorem `no_failure_success` moreover assumes
(`tracking`) that a rule application does not silently take away the unfinished node another node waits
for. Not modelled: progress reports, time stamps (C09), installing, the priority order of leaves (any
order is allowed), nested event loops of JavaScript commands.

### Set container (C25): `Set*.v`

Modelled: `tools/set.h` on sorted vectors; elements are compared by an abstract strict order. Iterators are
indices. Not modelled: allocation, move semantics.

### Product selection (C12): `Products*.v`

Modelled: `Executor::setupAuxiliaryProducts` (executor.cpp 175-203). The hash is an association list, its
iteration order is irrelevant to the result as a set. The recursion over dependencies has fuel; the
theorem shows that it does not run out for acyclic products.

### Job limits (C13): `JobLimits*.v`

Modelled: `tools/joblimits.cpp` and `Executor::setupJobLimits` (736-752) on lists of (pool, limit).

### Versions (C26, C27): `Version*.v`

Modelled: `tools/version.cpp`. `QString::toInt` yields 0 for numbers that do not fit into an `int`.

### Up-to-date checks and incremental builds (C09–C11): `Rebuild*.v`

Modelled: `FileTime` (Unix), `recursiveFileTime`, `retrieveSourceFileTimestamp`, `syncFileDependencies`, `isUpToDate`,
`mustExecuteTransformer`, `potentiallyRunTransformer` with both filters, `runTransformer`, `finishTransformer`, the
part of `finishJob` that records time stamps and marks parents, `commandsNeedRerun` as an oracle bit (see C41), and
what other code does to this state: rules and scanners that change dependencies (`Rewire`), scanner invalidation
(`Mark`), re-resolving with changed commands (`Reconfigure`), changes of files on disk (`Edit`).
A file's content is a number; commands are an arbitrary function of the configuration and of the contents of the
files the output depends on. A history is any list of events, jobs overlap arbitrarily, builds may be cut off,
jobs may fail and leave garbage behind.

Assumed (`fair` in `RebuildSpec.v`): the clock does not run backwards and files change strictly later than what was
recorded before; files are changed only between builds; commands that leave an output alone would have produced
the same content; the list of changed files, if given, is complete; forced time stamp checks are off (C10, C11
only); a failed job, and a transformer skipped by a restricted build, is still known to need a run.
`unrestricted_builds_are_clean` drops the last assumption for histories without changed commands.

Simplified: a transformer keeps its identity when rules are applied again; a node keeps its kind; the scheduling
order is that of `ExecutorModel.v` only as far as a transformer is considered after its dependencies are done;
changes of children that scanners make without touching file dependencies are not modelled.

### Message framing (C34–C36): `Session*.v`, `Launcher*.v`, `Lsp*.v`

Modelled: the three byte-stream protocols with their receive loops: `SessionPacket::parseInput`, `retrievePacket`,
`createPacket` and the loop of `SessionPacketReader`; `LauncherPacket::serialize`/`deserialize` of all five packet
types, `PacketParser::parse` and the receive functions of both ends of the connection; `BaseMessage::parse`, `header` and
`LspServer::Private::handleIncomingData`. Chunks are arbitrary lists of byte strings. Proof: processing
`a` and then `b` equals processing `a ++ b` (session, launcher), or an invariant saying how much of which message has
arrived (LSP).

Written down rather than verified: the format of `QDataStream`, `QByteArray::toInt` without its
tolerance of surrounding blanks, `indexOf`, `trimmed`, `readLine`. Not modelled: Base64 and JSON (payloads are byte
strings), what the launcher does with data after a protocol error, text codecs (a test for known names).

### Shell quoting (C32, C33): `Shell*.v`

Modelled: `hasSpecialChars` with its bit tables, `shellQuoteUnix`, `shellQuoteWin` (the three regular-expression
replacements and the circumflex pass), `shellQuote` for single arguments, lists and commands, `CommandLine::toCommandLine`.
The specification is a small POSIX word splitter that fails when it meets an unquoted character with a
meaning to the shell, and, for Windows, the command interpreter's quote and circumflex handling followed by the argument rules of
the C runtime.

Written down rather than verified: those two specifications, from the POSIX and Microsoft documents.

### Change sets (C37): `ChangeSet*.v`

Modelled: all of `changeset.cpp`: the overlap checks, the six operations, the conversion to replacements and `doReplace`
with its shifting of later positions, `QString::mid` and `QString::replace` with their treatment of positions out
of range. Specification: one pass over the original text. Proof: executing one replacement and shifting the rest leaves the one-pass
result unchanged. Not modelled: overflow of `int`.

### Paths (C20, C28, C29, C49): `PathModel.v`, `PathTheorems.v`, `InstallTheorems.v`

Modelled: the string functions of `FileInfo` (name, base names, suffixes, `path`, splitting, `isAbsolute`, `resolvePath`, for both
kinds of host), `joinPaths` of the script extension, `RulesApplicator::resolveOutPath`, `ProductInstaller::targetFilePath`.
Specification: a place is a stack of directories, a path is a walk. Proof: induction over
the sections of a path, and prefix arguments on strings.

Written down rather than verified: `QDir::cleanPath` (section by section, for a Unix host) and the home directory. Letters are ASCII. Not
modelled: symbolic links (paths are lexical), the actual copying.

### Build graph file and file saver (C21-C24): `PersistModel.v`, `PersistTheorems.v`, `SaveModel.v`, `SaveTheorems.v`

Modelled: `PersistentPool` with its tables for strings, string lists, environments and objects, all `PPHelper` cases, variants, down to
the bytes; heaps of objects with raw and shared pointers. The order of the fields of the classes is a parameter: the theorems hold for every
table of classes, provided store and load of a class go through the same fields (in the code nearly always one `serializationOp`).
Proof: simulation between the tables of the writer and those of the reader, by induction on the recursion bound of the writer and over lists; a second
induction (number of objects not yet written, then the value) shows that a large enough bound exists for every finite heap.
The saving of the file is a sequence of operations each of which can fail, write only some bytes, or be the point where the process is killed.

Written down rather than verified: QDataStream's format; `QVariant`'s own serialisation for numbers, invalid and null variants (others are not modelled);
Qt's comparison of strings. Operations on files take effect in order: reordering by the operating system after a power failure is not modelled, nor is QFile's buffering
beyond cutting the writes into arbitrary chunks. Identifiers beyond 2^31 - 1 are the outcome `Overflow`. Only freshly created pools are modelled (the code never reuses one).

### Build graph: edges, cycles, removal, lookup (C14, C15, C17-C19, C50): `GraphModel.v`, `RemovalModel.v`, `ArtifactsModel.v` with their theorem files

Modelled: `connect`, `loggedConnect`, `safeConnect`, `existsPath`, `findPath`, `disconnect` and the disconnecting functions of nodes; `CycleDetector`;
`handleRemovedRuleOutputs`, `removeArtifactAndExclusiveDependents`, `removeArtifact` with everything they touch (edges, transformers, rule nodes' old inputs, the lookup table,
the product, time stamps, the files); `insertIntoLookupTable`, `removeFromLookupTable`, `lookupArtifact`, `restoreBackPointers`; the functions that maintain
`m_artifactsByFileTag` and the roots. Nodes, products, paths and tags are numbers, sets are sorted lists (`Set`, C25).
Proof: depth first search invariants (finished nodes in reverse topological order; for every node on the stack, the children before the way taken are finished);
invariants over arbitrary histories of operations; removal by induction on the remaining ancestors, against an inductive definition of what has to go.

Assumed, as stated in the theorems: node sets are finite; operations for artifacts get artifacts; for removal, that the graph is acyclic and artifacts depend on
the inputs of their rule application; for the tag index, that tags of an artifact are not changed after it was removed from the product. Plain `connect` calls do not check for
cycles: `safe_histories_acyclic` is for histories in which they are used where none can arise (`careful`).

### Removing files: clean, empty directories (C30, C31, C51): `CleanModel.v`, `CleanTheorems.v`

Modelled: `ArtifactCleaner::cleanup`, `CleanupVisitor`, `removeArtifactFromDisk`, `removeEmptyDirectories`, `removeFileRecursion`, `EmptyDirectoriesRemover`. The file system is a finite map from
paths (lists of names) to files, directories, links, broken links and special files; an oracle says what the operating system lets one remove; another says when the user cancels. Recursion has fuel,
with bounds that always suffice (`clean_terminates`, `empty_directories_terminates`). Simplified: links to directories are not followed on the way to a path; the file system does not change behind the
program's back. The prefix test of directory names against the build directory is modelled on the texts; it is harmless because outputs are inside the build directory (C20), a hypothesis here.
Proof: every step only removes entries below what it is about; the loop over the growing list of directories has the invariant that the list is closed under parents and that everything before the current
position has been tidied; for the empty directories remover, deepest-first order makes the inductively defined set `goes` the result.

### Settings, profiles, preferences (C38, C39, C52, C53): `SettingsModel.v`, `SettingsTheorems.v`

Modelled: `Settings::value`, `allKeys`, `allKeysWithPrefix`, `setValue`, `remove`, `profiles`, the conversion between dots and slashes; `Profile::value`, `allKeys`, `exists`, `baseProfile`;
`expandedBuildConfiguration`; `Preferences::getPreference`, `jobLimits`, `pathList`; the wrapping of numbers by `representationToSettingsValue`. `QSettings` is a finite map from keys to values; reading and
writing the files, write errors, and the normalisation of keys with empty parts are not modelled. Values are strings, lists, numbers, truth values and hashes with the conversions of `QVariant`.
Stored keys are assumed to be without dots where stated (`clean_settings`), which is an invariant of everything written by qbs (`settings_clean`); a file edited by hand might violate it.
Proof: refinement of arbitrary sequences of changes to two abstract tables; inheritance against chains of profiles (first one with a value; uniqueness of the outcome; a bound for the depth).

### JavaScript literals, export and import of settings (C44, C54): `JsSpec.v`, `JsLiteralModel.v`, `JsLiteralTheorems.v`, `ConfigModel.v`, `ConfigTheorems.v`

Modelled: all of `jsliterals.cpp`; `settingsrepresentation.cpp`; exporting and importing settings in `configcommandexecutor.cpp`, text and JSON files. `JsSpec.v` is the specification of what the texts mean: an
evaluator for JavaScript literals written from the ECMAScript standard, with doubles rounded to the nearest; it says of every text whether it is a literal with a value, a syntax error, or outside of the
described part. That QuickJS follows the standard there is trusted, as are `QTextStream`, `QJsonDocument` (JSON files are modelled as trees, not text) and the conversion of characters to UTF-8 and back (so lone
surrogates are not covered). Variants of types that are written as strings (`double`, `QDateTime`, ...) are modelled by that string.
Proof: induction over nested values; the evaluator's fuel is bounded by the length of the text.

### Multiplexing (C40, C55): `MultiplexModel.v`, `MultiplexTheorems.v`

Modelled: all of `productitemmultiplexer.cpp` from the values of the qbs properties on (their evaluation is an input), with the ids as text: the compact JSON writer, UTF-8 and base 64 are modelled, with integers for numbers;
`adjustDependsItemForMultiplexing` in `dependenciesresolver.cpp`, apart from the branch for the aggregator's own dependencies. The comparison of `QVariant`s is a parameter, since it converts between types: theorems say which
of its properties they need (reflexive; an equivalence; equality). Strings are code points, while `QMap` compares UTF-16 code units: the order of names outside of the basic plane may differ from the model's.
Proof: lexicographic order as an invariant of the combination of columns; JSON, UTF-8 and base 64 are prefix codes; maps sorted by keys are canonical.

### pkg-config files (C43, C56, C57, C58): `PkgConfigModel.v`, `PkgConfigTheorems.v`

Modelled: all of `pcparser.cpp` from the contents of a file to the package (logical lines, tags, variables with `definePrefix`, substitution, words, flags, modules), `packageGetVariable`, `prependSysroot`, `removeSystemLibraryPaths`,
`getPackage`. Text is bytes. Not modelled: the branches for Windows, reading directories, dependencies between packages (`pkgconfigjs`), the texts of the messages. `isspace` is called with negative `char`s, which is undefined; in the model
no byte above 127 is a space. Text that reaches `splitCommand` or the module list ends at a NUL, as `c_str` makes it.
Specifications: lines and words as lists of pieces that are rendered and read back; substitution as an inductive relation with which the code agrees in both directions, errors included; flags with a writer whose inverse the parser is.
`std::sort` is a relation: any sorted permutation.

### Processes and the process launcher (C47): `ProcessModel.v`, `ProcessTheorems.v`

Modelled: `QbsProcess` (state machine of `start`, `cancel`, and of what it does with each signal), `LauncherSocket` (ready, lost, shut down; one queue in each direction), `LauncherSocketHandler` and its `Process` (start, stop, ends of processes, the
stop timer with its states terminating, killing, given up; abandoned processes whose timer goes on). Every action is one event handled by one of the threads, in any order. Calls of `start` are numbered by ghosts that no step looks at.
Not modelled: contents of packets (their framing is C35), output of the processes, that a shutdown packet may overtake requests that are not written yet, and that `isReady` and `sendData` are two steps. All clients exist from the beginning: one
created after the connection is lost would never be told. Trusted: `QProcess` leaves the running state before it says so, and says so at most once; a token (the address of an object) belongs to one object.
Specification: `legal`, a predicate on histories that says which event may follow which ones. The theorem is by an invariant over all reachable states. Progress is stated as the existence of steps that do not depend on the process or on its user.

### Module property values (C46, C59, C60): `MergeModel.v`, `MergeTheorems.v`

Modelled: `Value::priority` with its cache and `calculatePriority`, `ModulePropertyMerger` (`compareValuePriorities`, `mergePropertyFromLocalInstance`, `doFinalMerge`, `finalizeCandidates`) with all `QBS_CHECK`s as failures; `JSSourceValue::addAlternative`,
`ValueEvaluator` (`mergeValues`, `handleAlternatives`, `mergeWithCandidates`, `doHandle`, the exclusive flag); `VariantValue::create`, `clone` and the two marks for profile and command line, with the objects shared between bools.
The modules present and their distance from the product may differ at every step and at the end. Simplified: `std::sort` is insertion (the keys are different if no check fails, so that the result is the only sorted one), the model fails if any two candidates
cannot be compared; group items as scopes, undeclared and deprecated properties, base values and `outer` are not modelled; scripts are given by what they evaluate to; conversion only of elements to lists.
Specification: `class_of` and `above` (who overrides whom), `before` (class, then name), `result_ok`; for Properties items `list_parts` and `scalar_choice`; for marks `origin_of`, a list of who set what last.

### Rule graph (C16): `RuleGraphModel.v`, `RuleGraphTheorems.v`

Modelled: `Rule::staticOutputFileTags`, `collectedOutputFileTags`; `RuleGraph::build`, `accept`, `traverse`; `CreateRuleNodes` with its path and error; `areRulesCompatible`, `connectRulesToDependencies`, `resolveProductBuildData` and `BuildDataResolver::resolveBuildData` for
any number of products. Simplified: tags are numbers, a set of rules is visited in increasing order, which is that of their ids; source artifacts are not modelled, nor logging; recursion has fuel, `rule_nodes_total` and `project_total` prove that it never runs out, the latter also if products depend on each other in a cycle.
Specification: `makes` (tags of outputs, after those added by groups), `depends`, `needed`, `joined`, `waits`; none of them uses the functions of the model. `ranked` says that products do not depend on each other in a cycle, which the loader guarantees.

### Applying rules again (C45): `RuleApplyModel.v`, `RuleApplyTheorems.v`

Modelled: `RuleNode::apply`, `currentInputArtifacts`, `changedInputArtifacts`, `removeOldInputArtifact`; `RulesApplicator::applyRule`, `doApply`, `createOutputArtifact`, `collectOldOutputArtifacts`, `handleRemovedRuleOutputs` as far as the rule's own outputs are concerned;
what happens to a rule node between two applications: deletion of an artifact, `invalidateArtifactAsRuleInputIfNecessary`, `markTransformersForChangeTracking`, replacement of the children that a scanner has found.
Inputs of the model: which artifacts are inputs, timestamps, what the scripts return and whether one throws, whether tracked accesses give other values (C41), the time. Simplified: artifacts are numbers in the order of their addresses; commands are compared by a number; an output path is the output; file tags and
properties of outputs, `alwaysUpdated`, the scan itself (C42), other rules claiming the same path and the rescue of artifacts (C48) are left out; transformers that nothing refers to stay in the table. Specification: `made` (an output, its input and commands), `told` (what the scripts say), `reason`, `lost`; `settled` and `many` are invariants,
the former proved for every `history`. Rules without multiplex have inputs and need them (loaderutils.cpp 735-750 reports others), hypothesis `plain`. `apart` excludes inputs that are children of another input's output, where `crossing_refuted` shows that the claim fails.

### Change tracking of scripts (C41): `ChangeTrackingModel.v`, `ChangeTrackingTheorems.v`

Modelled: what a prepare script or a JavaScript command can read of the resolved project (module properties, product and project properties, dependency parameters, dependencies, artifacts by tag, the list of tags, exports, imported files, properties and tags of input files) and what is recorded for it (`getModuleProperty`, `PrepareScriptObserver`, `getArtifactsProperty`, `RequestedArtifacts`, `RequestedDependencies`,
the `add*`/`set*` functions of `ScriptEngine`), `getAndClearTrackedScriptAccesses`, the merging of several commands' accesses, and the comparison after resolving: `TransformerChangeTracker::scriptNeedsReRun`, `checkForPropertyChange`, `checkForImportFileChange`, `isExportedModuleUpToDate`, `isUpToDate` of the requested dependencies and artifacts, the environment of process commands, the two flags of a transformer, `qVariantsEqual`.
A script is any tree of questions and answers that ends in a number (its commands, or the effects of the command); `run` executes it in a project, `asked` is the trace. Simplified: the contents of an exported module are a number, without the check of the exported properties one by one; the caches of the tracker are left out; the file system is a table of times and contents;
`probes`, file access and environment access of JavaScript commands are not recorded by the code and are not part of the model; QVariant conversions between strings and numbers are those of Qt 6 (none).
Specification: `prepare_sound` and `commands_sound` (the tracker is silent, so the same trace and results come out in the new project) under `good`, `prepare_precise` and `commands_precise` (the same answers, so the tracker is silent) under `steady`; `good`, `steady` and `compatible` name the situations where it fails, each backed by one of the refutations.

### Commands of a job (CommandsModel.v, CommandsTheorems.v; C90, C91, C92)

Modelled: `ExecutorJob` (executorjob.cpp 91-179), `AbstractCommandExecutor::start`,
`startTimeout` and the stopping of the watchdog (abstractcommandexecutor.cpp 53-108),
`ProcessCommandExecutor::doStart`, `doCancel`, `sendProcessOutput`, `onProcessError`
(processcommandexecutor.cpp 123-211, 300-379), `JsCommandExecutor` with the flags of its thread
object (jscommandexecutor.cpp 77-131, 160-180, 233-289), and the states of `QbsProcess`
(qbsprocess.cpp 64-182), as one machine whose events are those of the launcher, its socket, the
watchdogs, the scripts, and cancelling. The fields that the objects carry from one command to the
next are in the state. Exit codes are compared as 32 bit unsigned numbers, as in the code.

Not modelled: the content of the output, describing commands, the response file (only whether it
can be made), the thread of the script executor (a script starts at once), the rule application that
may delay slots. Runs of commands are numbered by the model only.

### Running processes: environment scripts, environment, program, arguments (EnvScriptsModel.v, InvocationModel.v and their theorems; C93 to C96)

Modelled: `EnvironmentScriptRunner` (environmentscriptrunner.cpp 64-225) with its map of children by
name and its sorting; `ProcessCommand::getEnvironmentFromList` (rulecommands.cpp 272-283),
`mergeEnvironments` (processcommandexecutor.cpp 82-104); `ExecutableFinder::findInPath`,
`candidateCheck` and the cache (executablefinder.cpp 98-154, language.cpp 487-497); the making of
response files (processcommandexecutor.cpp 149-191).

Not modelled: what scripts do (a function from environments to environments, which may fail);
`PATH` in other spellings (systems where file names are case insensitive); absolute programs (on
Windows, suffixes are tried for them too); the theorems about programs are for Unix; the encoding of
the response file; negative indices, which are undefined behaviour in the code. How tools read
response files is an assumption in the spec: GCC's rules (or those of a shell, for single quotes) on
Unix; lines with the rules of the C runtime on Windows. qbs and the tool are assumed to read the same
file for a name; a relative name means different files if the command has another working directory
than qbs.

### Dependency parameters (C97) and canonical toolchains (C98)

Modelled: `DependencyParametersMerger` and `mergeParameters` (loaderutils.cpp 892-970), the collecting
of the places where a dependency is declared with its sorting by distance (productresolver.cpp
424-462), and the storing of parameters by path (dependenciesresolver.cpp 407-434).
`canonicalToolchain` for lists and for single names (tools/toolchains.cpp 79-140).

Not modelled: what expressions of parameters evaluate to (values are compared for equality and may be
undefined), the check that a parameter is declared in the module. For toolchains, lower case of
characters outside of ASCII.

### Requests of a session (C99 to C102)

Modelled: `Session` of src/app/qbs/session.cpp: the handling of all documented requests, the functions
connected to the ends of jobs, the state they share (project, project data, current job, the request to
resolve that waits for a cancelled job), the selection of products by name, the comparison of project
data in api/projectdata.cpp.

Not modelled: packets and JSON (C34), parsing of the properties of requests (they are given as data), log
data, warnings, task and progress messages, the contents of run environments and lists of generated
files. What jobs do is an input: success, the data of the project afterwards, and whether a failed job
to resolve has lost the project. Adding and removing files are functions on an abstract world; the
theorems of C100 assume that they change exactly what they are asked to or nothing, which needs a
project file that lists each file once.

### Changes to project files (C103 to C105)

Modelled: `ProjectFileUpdater::apply` with the guessing and conversion of line endings; the adding and
removing of files for array literals, string literals, other expressions and missing bindings; the
finding of an item by line and column; what the rewriter replaces or inserts; the text of new groups
and dependencies.

Not modelled: the parser. A document is given as a list of items, each with the text before the value of
its `files` binding, that text, what it parses to, and the text after it; items are in the order of the
file and do not nest (an outer item is text of the head). Decoding from UTF-8 and back is left out (a
byte order mark and invalid bytes get lost). Comments between the elements of an array are not elements,
and get lost when it is written again; holes are dropped. The places where the rewriter inserts new
items, and the exact place of a new binding among the members, are not modelled.

### Property values on the command line (C106 to C108)

Modelled: the tree of values by the last dot of a key; the overriding of properties of an item; its use
for projects (first `project`, then the name, then `projects.` and the name), products, and modules in
products (`modules.`, `qbs`, `products.`); the checks of keys, of the names of projects and of products; the
setup parameters with their three cached trees.

Not modelled: the conversion of a value to the declared type is an oracle that may fail (it is given
the type and the text); where the items come from (properties of a project that are copied to the
projects in it, disabled projects, multiplexed copies of a product, prototypes of modules, instances of
a module at other places). The values for module providers are not looked at. In strict mode the first
error ends everything; the model collects all, as is done for warnings. What `expandBuildConfiguration`
finds is an input.

### Names of platforms (C109 to C112)

Modelled: `canonicalArchitecture`, `canonicalTargetArchitecture`, `canonicalOSIdentifiers`, `rfc1034Identifier`; for
MSVC 15 and later, the naming of the architecture of a compiler by its directories, the pair of host and
target made from it, and the choice in `installedMSVCs`.

Not modelled: how the compilers are found on disk, and older MSVC versions (their list of known
architectures has names of the same form). Lower case is that of ASCII.

### Quoting and hashes (C113 to C115)

Modelled: `escapedString` as `cStringQuote` calls it, the text written by `mergeCFiles`, `getHash`, and the relative file path
of object files. Inputs of the model: `QChar::isPrint` and SHA-1. The theorems need of the former that line ends, null
and surrogates are not printed; of the latter that it gives 20 bytes.

The specification of literals has raw characters, simple escapes and universal character names, with
the ranges of C++11 and of C99 to C17; octal and hexadecimal escapes are left out (they are not used). Trigraphs
are a separate phase before it. A name in an include line has no escape sequences.

Not modelled: how the arguments and results are passed between JavaScript and C++.

### Values of properties (C116 to C118)

Modelled: `getJsVariant` and `asJsValue` for all kinds of values, `convertToPropertyType_impl` in both modes with its errors and the base
directory, the special case for undefined variants, what `evaluateProperty` stores for values with source code, and
`checkAllowedValues`. Inputs of the model: the resolving of a path against a directory (see C28 for it), and which floating
point numbers are true.

Not modelled: values that contain themselves (the inner one becomes undefined), functions, freezing and the cache of
values, getters, texts with unpaired surrogates, dates outside the years 0 to 9999. Variants are null as in Qt 6.

### The makefile generator (C119 to C122)

Modelled, for Unix: `quote`, both forms of `makeValidTargetName`, `replacePrefix`, `bruteForcePathReplace`, the definitions at the
beginning with the errors about spaces, and the lines for products, rules, commands, directories, installing and removing. The
specification of make (expansion, definitions, flags of commands, lists of files) is in MakefileTheorems.v and part of the trusted
base, together with the shell of C32; where make would do something that is not meant here it has no result.

Not modelled: Windows, the order of the lines, the rules for further outputs, the environment of commands (which the generator
leaves out), warnings.

### The lock of the build graph (C123 to C125)

Modelled: the constructor and destructor of `BuildGraphLocker` as steps of any number of processes on a tree of files, and
`DirectoryManager`. A step is one access to the file system (creating the directories, one attempt of QLockFile, reading the lock
file, removing it, unlocking, removing the directories at the end); between two steps others may do anything except to the lock
file. Trusted: what QLockFile does (an existing lock file is replaced if it is of this host and its process does not run or has
another name; never if the file is locked by an open file descriptor, where such locks work), mkpath and rmdir, and that a process
that starts has an id that no running process of its host has.

Not modelled: missing permissions, the waiting time of an attempt, lock files with a different boot id, names of programs that
differ in case only (Windows), the removal of several directories as several steps.

### JobLimit items and the option for them (C126, C127)

Modelled: `resolveJobLimit`, the merging over the chain of projects and over the modules, and `JobLimitsOption::doParse`. The class
JobLimits is the one of C13. Items are given with their evaluated properties.

Not modelled: the evaluation, `QString::toInt` (any function), the messages of errors.

### Exported values (C128) and names of sub-projects (C129)

Modelled: `adaptExportedPropertyValues` with QVariantMap as a list sorted by keys, and `makeSubProjectNamesUniqe` with the set of
projects in any order.

Not modelled: how exported values are collected and evaluated, `QString::toLower` (any function), how the names of sub-projects are
used.

### Items that inherit (C130 to C133)

Modelled: declarations and bindings of an item with names of any number of parts, duplicates, Properties items with conditions and
the one for otherwise, `inheritItem` with base values, declarations and children, and the initial values of a built-in type.

Not modelled: how the file of a type is found and parsed (the chain of files is an input), the scope of ids, expired and deprecated
declarations, Properties items in groups, `overrideListProperties`, checks of the types of children, and the evaluation of the
values (C80 to C83 have that of groups).

### Libraries for the linker (C134 to C136)

Modelled: `collectLibraryDependencies` of gcc.js with `traverse`, its tables, `addObject`, public, private and external files, and
the loop of `linkerFlags` that writes libraries and the switches for whole archives.

Not modelled: Darwin (frameworks, `-force_load`, `symbolLinkMode`), `cpp.removeDuplicateLibraries` set to false, how a file path or a
name becomes an argument, and taking the directory of a file for `-rpath-link`. Products are finite trees in which a name stands for one product:
qbs refuses products that depend on each other in a cycle (C70 and C71 are about the loader).

### Libraries for linkers that are not like GCC's (C137)

Modelled: `collectLibraryDependencies` of cpp.js, with the traversal, files, external libraries and object files among them.

Not modelled: appending the suffix to names of external libraries and names that begin with an at sign (names are inputs), the name
of the product that goes with an import library, search for libraries in directories (`collectAbsoluteLibraryDependencyPaths`), and
how msvc.js and others turn the result into arguments. The graph of products is as for C134.

### Shared libraries needed indirectly (C138)

The model is that of C134; `indirect` is the list of files whose directories `rpath_link` has.

### Progress bar (C139)

Modelled: all functions of `ConsoleProgressObserver`, with the characters they write, and how the front end adds up the efforts of
build jobs. The specification has its own terminal.

Not modelled: overflow of `100 * m_value`, other output between updates of the bar, lines longer than the terminal, encodings, and
how the library computes efforts (the values are inputs, in any order for one job, not decreasing for several).

### Go to definition via code links (C140)

Modelled: the order of positions, ranges, the table of links and the lookup in it. File paths are numbers.

Not modelled: `Document::isPositionUpToDate` (an arbitrary predicate on files and positions, so that nothing is said about which edits
count as changes), how the loader determines ranges and targets, the conversion of positions and the JSON of the answer, and going to
the definition of module properties. The theorems of C140 have not been tested against wrong programs.

## Findings

Places where the faithful model violates what one would expect; each is a theorem with a witness.

* `set_range_constructor_refuted`: `Set(begin, end)` keeps duplicates.
* `prerequisites_first_refuted`: a job is started as soon as *one* of its outputs has all dependencies;
  another output with an additional dependency (added by a dependency scanner) may still wait.
* `failure_reported_refuted`: with keep-going, a failed command goes unreported if no requested root depends
  on its outputs.
* `cancel_reported_refuted`: `checkForCancellation` does not set `m_explicitlyCanceled`; with keep-going a build
  cancelled that way can report success although its commands were killed.
* `narrow_down_intersection_refuted`: `VersionRange::narrowDown` ignores the other range's maximum if the range
  itself has none, so narrowing is neither intersection nor symmetric.
* `check_failure_restricted_refuted`: a build that executes rules only (or is filtered by files or tags) leaves
  an invalidated output without time stamp; the internal check in `isUpToDate` (executor.cpp 486) then fails for
  the outputs depending on it.
* `failed_job_lost_refuted`: if a job runs only because its commands changed, and fails, the next build considers
  its outputs up to date (`commandsNeedRerun` has cleared the flag, `ExecutorJob::run` the recorded accesses).
* `rules_only_lost_refuted`: so does a build with `executeRulesOnly`, without running the commands.
* `mark_lost_refuted`: a build filtered by tags or files clears `markedForRerun` of transformers it skips.
* `lsp_no_error_response_refuted`: a chunk that ends right after `Content-Length: ` (or inside the character set of a
  content type) makes the language server answer with a parse error although the message is correct and is handled once
  the rest arrives.
* `win_percent_refuted`, `win_newline_refuted`: on Windows percent signs and line breaks are not protected; C33 excludes them.
* `unix_command_run_refuted`: a program called `A=B` is not quoted, so the shell takes it as an assignment
  (`unix_command_run_partial` is the rest). The word list is right.
* `edits_exact_refuted`: replacing a range and then inserting at its start is not reported as an overlap, but the
  insertion goes astray (`doReplace` tests the position it has just changed), to the point of getting lost.
  `edits_after_removal_refuted`: after a removal, texts inserted at the two ends of the removed range may come in the wrong order.
  C37 excludes these insertions.
* `resolve_root_refuted`: on Unix, the parent of a top-level directory is resolved to the empty string instead of `/`.
  `resolve_untidy_refuted`: base directories with double slashes at the end are resolved wrongly; the code says that it expects clean ones.
* `suffix_without_dot_refuted`: the suffix of a file name without a dot is the whole name.
* C29 is false: `install_inside_refuted` (the check compares characters, so with root `/i` the prefix `../ij` passes),
  `install_base_inside_refuted` (no check with a source base), `install_beside_base_refuted` (files beside the
  source base are accepted with truncated paths). `install_inside_partial` and C49 are what remains.
* `null_in_list_refuted`: a string list that contains a null string may be read back with an empty string instead (or the other way round), because
  the table of lists uses Qt's comparison, in which both are equal. Plain strings are exact. C21 is stated accordingly.
* `optional_not_reset_refuted`: loading an optional without a value leaves a value that was in the variable before. `mixed_pointers_refuted`: an object
  referred to by a raw and a shared pointer would be read as two objects. Neither happens in the current code, which loads into fresh objects and keeps ownership separate.
* `old_graph_kept_refuted`: the old build graph is deleted before the new one is written, so a crash in between loses both.
* `saver_creates_refuted`: FileSaver reports success without creating the file when empty contents are saved to a missing file.
* `cycle_report_refuted`: the chain printed for a dependency cycle may end with two nodes that are not connected, since the detector remembers the node it entered last,
  which may be a finished sibling (cycledetector.cpp 93-110). Hence C50 is partial. The first node named is on a cycle (`cycle_report_partial`).
* `explicit_dependency_refuted`: when an artifact is removed, the transformers of dependents that stay keep it among their explicit dependencies
  (projectbuilddata.cpp 205-212 cleans up inputs only); the object is deleted, so the set that is stored later contains a dangling pointer.
* `no_inputs_refuted`: outputs of a rule application without inputs are removed with any one of their dependencies although others remain.
* `source_after_generated_refuted`, `reload_refuted`: a source file is accepted although a generated artifact has the same path; when that graph is loaded again and the
  source file comes first, loading fails with a conflict.
* `source_roots_refuted`: whether an artifact with a tag of the product type is a root depends on whether it was tagged before or after it was added to the product.
* `clean_dry_run_refuted`: with the dry-run option, clean still removes directories that contain no files (artifactcleaner.cpp 217-219 does not look at the option); `clean_dry_run_rescuable_refuted`: it also
  drops the data on artifacts that could be rescued (line 125). Hence C51 is partial.
* `clean_broken_link_refuted`: a broken link (or a socket, pipe) in a directory of artifacts is not seen when looking whether the directory is empty, so cleaning ends with an error.
* `clean_keep_going_refuted`: with keep-going, a file of an earlier artifact that cannot be removed ends the whole cleaning (lines 117-126 are outside of the `try`).
* `numeric_preference_refuted`: `qbs config preferences.jobLimit.linker 4`, as in the documentation (doc/howtos.qdoc 614), has no effect but to lift the limit: numbers and truth values are stored wrapped
  in a hash (settingsrepresentation.cpp 72-91), and `Preferences` reads general preferences without unwrapping it, getting 0. The same goes for `preferences.jobs` and `preferences.useColoredOutput`.
  Preferences of profiles are unwrapped (profile.cpp 204). Hence C53 is partial.
* `keys_with_values_refuted`: when a project defines a profile that is also in the settings, keys that are only in the settings have a value but are not listed, so they are missing from the build configuration.
* `reserved_name_refuted`: values for profiles whose name begins with `none` are refused (settings.cpp 177 tests for a prefix).
* `js_literal_refuted`: `toJSLiteral` does not escape line feeds and carriage returns, so that such a string is no JavaScript literal (`js_string_exact`: exactly those); `js_number_refuted`: integers with more than
  53 bits change; `js_proto_refuted`: a map entry with the key `__proto__` disappears; `js_text_is_string`: a `double` comes back as a string. Hence C44 is partial.
* `export_import_refuted`: because of that, exporting and importing settings changes a value with a line feed. `import_scopes_refuted`: exporting and importing without giving a scope doubles the elements of
  lists in the system settings.
* `json_children_refuted`: exporting to JSON drops all settings below a name that has a value itself. `json_number_refuted`: after importing a JSON file, a number is no longer stored in the wrapper that keeps its type in
  the settings file.
* `aggregate_without_axes_refuted`: with `aggregate: true` and nothing to multiplex by, the multiplexer returns two products with the same name and no id.
* `words_empty_refuted`: an empty quoted argument in Libs or Cflags is lost.
* `modules_comma_refuted`: a comment in `splitModuleList` says commas are treated like spaces, but `Requires: glib,` is an error (empty name), as is a trailing space or comma from an empty variable.
* `prefix_relocated_refuted`: with `definePrefix`, the directory of the file becomes part of text that is substituted again: a directory with `$$` or `${` in its name gives wrong paths or an error.
* `sysroot_directory_refuted`: whether a path is already below the system root is decided by comparing text: with `/opt/s` as the system root `/opt/src/lib` is left alone.
* `package_precedence_refuted`: packages are sorted by name with `std::sort`, which is not stable: if two search paths have a file of the same name, either may be found, whatever the order of the search paths (C58 is partial).
* `grace_period_refuted`: a process gets three seconds between the signals only if it is stopped once. A second request (the user cancels while a time-out is being handled) kills it at once, and a third one gives it up at once, without any timer having expired.
* `order_refuted`: the distance of a module from the product may grow after the value it sets was compared with others (the priority is remembered until the final merge). If two modules end up at the same distance, then the scalar value depends on when they were loaded. It does not if one value overrides all others (`order_independent`) or if the distances do not change any more (`order_independent_sorted`).
* `command_line_bool_refuted`, `internal_bool_refuted`: `VariantValue::create` returns shared objects for `true`, `false` and invalid values, and marks are set on these. If a bool is set on the command line, the same value from a profile in a module loaded later is taken for one from the command line, so that project files cannot override it. A bool set by qbs itself is taken for one from a profile as soon as any profile has set any property to that value.
* `fallback_after_undefined_refuted`: a `Properties` item whose condition is `undefined` is documented to apply only if no other one matched. For list properties it also applies if another one matched but its value was undefined.
* `override_sticks_refuted`: `overrideListProperties` sets a flag of the value that is never reset. If the condition does not hold any more when the value is evaluated again, then the values of modules are still left out.
* `waits_for_inputs_refuted`: `excludedInputs` separates a rule from another one as soon as any artifact of the latter has an excluded tag. Other artifacts of that rule still are inputs (inputs are selected artifact by artifact), but nothing makes the rule wait for them. The documentation does say that connections to rules that produce excluded tags are prevented; that inputs are then not waited for, it does not say.
* `crossing_refuted`: to find out whether the prepare script has to run again for an input, the first parent of the input that was made by the rule is looked at. If the input is also included by another input (a .cpp file that includes another one, both compiled), that is the same transformer for both, and its mark is cleared by the first look. After a change of a property, one of the two outputs is not made again.
* `no_outputs_refuted`: if `outputArtifacts` returned an empty list for an input, no transformer is kept. A later change of a property that the script has used is not noticed (except module properties of the input artifact, which take another way).
* `leftover_refuted`, `replaced_refuted`: the outputs of the last time are found via the inputs. A multiplex rule without inputs, or all of whose inputs have been replaced, that now makes outputs with other names keeps the old ones too, in the build graph and on disk.
* `former_input_refuted`: an artifact that was an input and on which the outputs explicitly depend stops being an input: `QBS_CHECK(parent->childrenAddedByScanner.contains(artifact))` fails, as the artifact is a child of other outputs without a scanner having added it.
* `explicit_without_inputs_refuted`: a rule without inputs is not applied again if there are new artifacts that it explicitly depends on, or newer ones; its outputs do not depend on the new ones.
* `named_twice_refuted`: if `outputArtifacts` names a path twice, the old transformer is taken to be the new one, so that the outputs are not made again when the commands change.
* `mixed_kinds_refuted`: the kind is not part of the identity of a recorded property (property.h 90-95). If a product has the name of its project and the script reads `product.x` before `project.x`, a change of `project.x` is not noticed.
* `module_artifacts_refuted`, `module_presence_refuted`, `product_of_artifact_refuted`, `added_property_refuted`: nothing is recorded when a script reads `product.module.artifacts`, finds out whether there is a module, reads `input.product.x`, or reads a product property, project property or parameter that does not exist. Later changes are not noticed.
* `dependency_order_refuted`: dependencies are recorded as a set of names; another order is not noticed.
* `empty_list_refuted`: `qVariantsEqual` takes an empty list (or map) to be equal to every value that is not a list (map).
* `new_target_refuted`: all artifacts with a tag are recorded, whether they are targets of a module or not, but the script sees only the latter.
* `same_name_parameters_refuted`, `same_name_parameters_needless_refuted`: parameters are recorded under the plain name of the dependency. With two dependencies of the same name (multiplexed products) those of the first one are compared: changes are not noticed, or the script runs in every build.
* `renamed_project_needless_refuted`: after renaming the project, all scripts that have read one of its properties run again.
* `enumerated_later_refuted`, `no_tags_refuted`, `artifact_in_two_commands_refuted`: if a rule application has several JavaScript commands, the accesses are merged such that the flag for the enumeration of tags of a later command is lost, all tags of an earlier command are lost if the product had no tagged artifacts, and the properties that an earlier command has read from an artifact are lost if a later one reads from the same artifact.
**C48** `inputs_differ_refuted`: children are compared as one set, whether scanned or not. If a file that was found by a scanner becomes an input of the rule, the results are reused though the rule has one more input (if the commands do not mention it).
**C48** `child_unreported_refuted`: artifactrescuer.cpp line 101 reports the path of the artifact whose data are to be rescued instead of the path of the deleted child, so a directory that gets empty by that is not removed.
**C48** `childless_refuted`: the file dependencies are recorded in the loop over the children (buildgraphloader.cpp 1002-1006). An artifact without children that are artifacts loses them and is not made again though one of them is newer.
**C48** `accesses_lost_refuted`: outputs that were made by two rule applications with the same commands and are made by one now: only what the commands of the last one had read is checked.
**C48** `deleted_not_made_refuted`: an output with `alwaysUpdated: false` that cannot be rescued is deleted, and is not made again in this build if another output of its rule application was rescued.
**C48** `files_without_rescue_refuted`: file dependencies are inserted before it is known whether the data can be rescued; an artifact whose data are not rescued has some of them nevertheless.
**C42** `later_artifact_refuted`: resolutions are remembered for the whole build, also that nothing was found. A header that a rule generates later in the same build is not found by other files that include it by the same name; they do not wait for it.
**C42** `child_change_refuted`: the time stamp is cleared only if file dependencies change, not if another artifact is found.
**C42** `unclean_search_path_refuted`: the directory is cleaned only if the include has dots or double slashes in its own directory. With a search path such as `/q/../s` an artifact in `/s` is not found, and the file is taken for a plain file.
**C42** `root_include_refuted`: an include directly below the root loses its slash (`RawScannedDependency::filePath`) and is looked for in the search paths.
**C42** `same_tick_refuted`: a file that is changed in the same tick as it was scanned is not scanned again.
**C42** `shared_search_paths_refuted`: for scanners whose cache is not per file, the search paths of the first file are used for all others with the same properties and tags.
**C62** `late_required_refuted`, `late_required_module_refuted`: if a missing module is first asked for by a Depends item that is not required, a required Depends item after it goes unnoticed; in the other order there is an error. Within a module the entry keeps the `required` of the first item.
**C62** `disabled_dependency_refuted`: a module that requires a disabled product is present, without an error, if the module was first loaded through a Depends item that is not required, even if the product requires it as well.
**C62, C63** `optional_range_refuted`: the version range of a Depends item that is not required makes a required module fail.
**C63** `version_maximum_refuted`: the maximum version of a later Depends item is lost if the first one has none (see `narrow_down_intersection_refuted`); the product gets a version that it excludes.
**C64** `chain_order_refuted`: a module that is reached over a longer chain later on does not pass the length on to the modules that it needs, so that one of these can win over it.
**C65** `include_after_null_directive_refuted`: `#` alone on its line hides an include in the next line. `include_after_splice_refuted`: so does a backslash before the newline on an otherwise empty line before it. `include_spliced_word_refuted`: a directive whose name is split by a backslash and a newline is not recognised.
**C65** `include_after_latin1_refuted`: if the last byte of a line is beyond ASCII and not UTF-8 (a comment in Latin-1, say), the lexer takes the newline for a part of the character, and an include in the next line is missed.
**C65** `include_in_comment_refuted`: a comment with two slashes that ends with two backslashes is continued for the compiler but not for the scanner. `include_after_digit_separator_refuted`: the lexer takes the separator in `1'000` for the start of a character literal, so that the start of a comment after it is not seen; includes in the comment are reported.
**C65** `include_unterminated_refuted`: without a closing angle bracket, the name goes on over the following lines. `include_after_import_word_refuted`: a line that starts with `import` and a name swallows everything, directives too, up to the next semicolon, also in files that do not use modules.
**C66** `import_header_path_refuted`: `import <sys/types.h>;` is recorded as `<sys.h>`. `import_quoted_header_refuted`: a header unit with quotes is not recorded. `module_dotted_partition_refuted`: the name of a partition ends at its first dot.
**C67** `wildcards_sibling_refuted`: whether something is in the build directory is decided by the start of the text: with the build directory `/p/build`, nothing in `/p/build-tools` is ever matched. `wildcards_hidden_refuted`: `**/hooks/*.c` finds files below `.git`, `**/*.c` does not. `wildcards_defined_refuted`: an empty string in `excludeFiles` takes the first element of an empty list.
**C68** `excluded_stays_refuted`: `excludeFiles` has no effect on files that are named without wildcards, although the documentation says that these files are subtracted from the list.
**C69** `taggers_never_with_tags_refuted`: with `overrideTags: false`, taggers apply to files with tags set in the group; according to the documentation they are disabled then. `filters_unordered_refuted`: the order of groups with `fileTagsFilter` matters if one adds a tag that another one asks for (`filtered_unordered` for the other case).
**C71** `resolver_once_refuted`: if products wait for each other, scheduleNext() queues them again but leaves them in `m_waitingForSingleDependency` (case c); when the first of them is finished, the others are queued once more, so that a product is resolved and added to the finished products twice. This happens only with dependency cycles, that is, with an error, but in relaxed mode the products are then used. Without cycles: `resolver_once`. When threads cannot be created at all, the scheduler tries for ever (excluded by `ordinary`).
**C73** `restore_canonical_refuted`: the loader has a check for results of File.canonicalFilePath() that have changed, but nothing calls addCanonicalFilePathResult(), so that changed links are never noticed.
**C73** `restore_source_refuted`: a source file that was there and is removed does not lead to resolving again (only the reverse is looked for), so the stored project is used although resolving it would fail. The build reports the missing file later.
**C73** `restore_old_file_refuted`: files are compared with the time of the last resolving, so a project file that is replaced with an older one with different contents goes unnoticed. `restore_content_refuted`: the same holds for files read with TextFile and the like, whatever their time, unless File.lastModified() was called.
**C76** `reload_lost_refuted`: if a product is disabled, the data about its generated files is kept for later; but when the project is resolved again while the product stays disabled, this data is neither moved nor rescued. The files are not removed and are not known any more when the product is enabled again.
**C77** `reload_rules_refuted`: rules are compared by a key made from their input and output tags, scripts and file paths, and of several with one key the last one counts; with two rules that have the same key and differ in something else (alwaysRun, explicitlyDependsOn), the change of the first one goes unnoticed, and then the check in updateProductAndRulePointers() fails.
**C77** `reload_order_refuted`: groups with a file tags filter are compared regardless of their order, but the first one that fits decides on the properties of a generated file; if only the order is changed, generated files keep the old properties. `reload_tagger_refuted`: file taggers are not compared, so generated files without explicit tags keep the tags of taggers that have changed.
**C78** `probes_world_refuted`: what a configure script looks at apart from imports (File.exists(), processes, TextFile) is not compared: if File.exists() in a probe gives another result, the project is resolved again because of that (C73), but the probe keeps its old result. This is documented behavior (--force-probe-execution), but the resolving then happens in vain.
**C78** `probes_import_refuted`: if an import statement in the file of a probe is changed so that a name stands for another file, the text of the script and the files used before are unchanged, so the old result is used. `probes_mixed_refuted`: stored results of a product are looked up by product, script text and property values, not by id or location (as those of a project are); if two probes of a product in different files have the same text and values, but different imports, then resolving again gives one of them the values of the other, although nothing has changed.
**C80** `self_reference_refuted`: the check for self-reference looks for the owner of the property and the value, not for the item it is evaluated for. A property that a group inherits from the product (`b: a`), evaluated in a group that sets `a: product.m.b`, is reported to refer to itself, although `product.m.b` is another, well-defined value.
**C81** `error_spoils_refuted`: after an error in a nested property each further property that the script asks for is evaluated to undefined and is put into the cache as that, also of other modules. If the error is ignored (a module that is not required fails its validation), later users of these modules see undefined values.
**C82** `purge_refuted`: the final merge of module properties means to purge the caches of the modules that depend on changed ones, but `Evaluator::clearCache(const Item *)` asks for the attached pointer with another class id than the objects have, gets no pointer and does nothing. Values that a validation script has seen before the merge stay.
**C83** `group_variant_refuted`: dependencies are recorded for scripts only. If the product's value of a module property is a variant (from a profile or the command line) and a group sets that property, then module properties that depend on it keep the product's values in the group.
**C83** `group_cached_refuted`: the record of dependencies is cleared before the module properties of the product are evaluated, but the caches are kept from the validation of the modules. A property that a validation script has asked for comes from the cache, what it depends on is not recorded, and in a group that sets one of these properties it keeps the product's value.
**C84** `own_search_path_refuted`: the key of the cache of module providers (name, module, configuration, qbs module, kind of lookup) lacks the search paths, and that no file was found is cached as well. If products have `qbsSearchPaths` of their own, the second product to ask gets the provider of the first one, or 'Unknown provider' if the first one had none; who asks first depends on the order of the products and on the scheduling of threads.
**C84** `changed_provider_refuted`: stored results are used when a project is resolved again, without a look at the provider file. After the file was changed or a new one was added, the old result is used until the running of probes is forced. As the file is not read in that run, it is no longer among the files of the build system either, so that later changes to it do not even cause the project to be resolved again.
**C86** `dry_run_removes_refuted`: after a dry run the directory of the provider's name is removed, not the one for the configuration that the dry run had. The output for the configuration of the stored build graph goes with it, and the next run with that configuration uses the stored search paths, which do not exist any more.
**C88** `unqualified_name_refuted`: a key without a module means one of the qbs module, but `configurationName:x` is accepted and has no effect, while `qbs.configurationName:x` names a configuration: keys are compared before they are made complete.
**C88** `repeated_section_refuted`: if a configuration is named twice, the properties behind the second one are dropped (with a warning), instead of being added.
**C89** `help_taken_refuted`: the whole line is searched for `-h` and `--help` before it is parsed. `qbs run -- --help` shows the help for run instead of passing the switch to the program, although everything behind `--` is for the program; the same for an option's argument that reads `-h`.
C90, `timeout_sticks_refuted`: `m_cancelReason` of a process command executor is never reset. After a process that took too long, with keep-going, each later process command of the same job fails with the message about the other command, even if it exits with 0; and its output is not reported, as the reporting was disconnected with the first cancel (processcommandexecutor.cpp 202-209, 317-323).
C90, `start_error_sticks_refuted`: `QbsProcess::m_error` is never reset. After a process that could not be started, with keep-going, each later process command of the same job fails with 'process error' even if it exits with 0 (qbsprocess.cpp 64-76, 155-182; processcommandexecutor.cpp 303).
C90, `script_timeout_sticks_refuted`: `m_cancelled` of the script's thread object is never reset. After a JavaScript command that took too long, later ones of the same job are not run and fail with the old message (jscommandexecutor.cpp 91-112).
C90, `crash_succeeds_refuted`: the exit status and the error in the packet about the end of a process are not used, so that a crash by signal n counts as success for a command with `maxExitCode` of at least n (qbsprocess.cpp 173-182).
C90, `watchdog_stays_refuted`: if a process cannot be started because of an error of the socket, the command finishes from within its start, and the watchdog is started after that. It stops a later command of the same job, even one without a time limit (abstractcommandexecutor.cpp 72-80).
C91, `command_hangs_refuted`: a command whose time is over before the launcher could be reached never ends: the error of the cancelled process is ignored, as a reason for the cancel is set, and no end of the process follows (processcommandexecutor.cpp 341-342, qbsprocess.cpp 94-99). Cancelling the build does not end it either.
C91, `unstarted_hangs_refuted`: the same for a process that cannot be started after an earlier command of the same job took too long.
C93, `same_name_script_lost_refuted`: modules are looked up by name when their scripts are sorted, so that of two modules of the same name (a product that depends on two variants of a multiplexed product that exports a script) only one script is run (environmentscriptrunner.cpp 64-100).
C94, `command_environment_refuted`: an entry with an empty value (as in `CCACHE=`) is silently left out, so that a command cannot make a variable empty (rulecommands.cpp 276).
C95, `other_working_directory_refuted`: the cache of found programs has only the given path as its key. With a dot in PATH (on Windows always), the second of two commands with different working directories runs the program of the first (executablefinder.cpp 115-138).
C95, `installed_later_refuted`: that a program was not found is cached too, for the life of the product object, so that a session does not find a program that was installed after a failed build (executablefinder.cpp 119, 138).
C96, `response_file_backslash_refuted`: arguments are quoted for a shell, but GCC and LLVM also take backslashes inside single quotes as escapes in response files; `-DNL=\n` becomes `-DNL=n` (processcommandexecutor.cpp 178).
C96, `response_file_caret_refuted`: on Windows the quoting includes circumflexes for the command interpreter, which nobody removes from a file: `-DH="<x>"` becomes `-DH="^<x^>"` (shellutils.cpp 133-140, processcommandexecutor.cpp 178).
C96, `response_file_prefix_refuted`: an argument that merely begins with the prefix (`@rpath/liba.dylib`) works with a short command line and makes the command fail with a long one (processcommandexecutor.cpp 169-176).
C97, `parameters_merged_refuted`: the merger compares the priority of a value with that of the place merged before, not with that of the value it replaces. If two places are at the same distance from the product, a value that one of them overrides is reported as a conflict, depending on the order of the places (loaderutils.cpp 929-964).
C97, `parameters_undefined_refuted`: with an undefined value at one of two places of the same distance, the order of the places decides between a conflict and success (loaderutils.cpp 929-964).
C97, `parameters_clash_refuted`: a parameter whose path is also the name of a module with parameters is silently lost when the latter are merged over it (loaderutils.cpp 940-955).
C98, `toolchains_special_first_refuted`: the canonical list for `emscripten` is `[gcc, emscripten]`, the only one where the family comes first; the function for a single name, which qbs-setup-toolchains uses, gives `[emscripten, gcc]` (toolchains.cpp 81-89 and 124-140).
C99, `one_reply_each_refuted`: a request to resolve that arrives while another one is being cancelled takes its place, and the first one is never answered (session.cpp 284-291, 305-314). `released_job_refuted`: release-project during a job drops it without a reply to the request that started it (session.cpp 684-702). The documentation does not say that such requests go without a reply.
C99, not a theorem: the message of an error reply is put into a local object that is then put into itself, so that replies made by `createErrorReply` contain the message twice (session.cpp 848-870).
C100, `dependencies_error_refuted`: the result of adding dependencies is never looked at; the reply has no error and lists no failed dependencies (session.cpp 539-544).
C100, `rename_failed_refuted`: a renaming is a removal and an addition. If the new name cannot be added (it does not exist, or is already listed), the old one stays removed, though the reply says that renaming failed and brings no new project data (session.cpp 501-522).
C100, not a theorem: adding and removing files only edit the project files; project data is not updated until the project is resolved again (api/project.cpp 441-520), so the data sent with the reply is that from before.
C101, `unknown_products_refuted`, `no_products_refuted`: if no named product is known, or the list is empty, the selection is empty and means everything: all default products are built or installed, and all products are cleaned (session.cpp 341-343, 387-389, 713-722).
C102, `failed_build_data_refuted`: after a build that failed, the data is taken over but not sent; the next build compares with it and does not send it either (session.cpp 364-377, 761-783). `prefix_data_refuted`: the comparison of groups ignores their prefix (projectdata.cpp 233-245). `properties_data_refuted`: other module properties in a later request do not count as a change.
C103, `files_removed_refuted`: when files are removed, the names of the remaining ones are written without escaping, so that a name with a backslash changes and one with a quote breaks the project file (projectfileupdater.cpp 477-482); adding escapes. `file_with_line_break_refuted`: line breaks in names are not escaped by either.
C104, `stale_place_refuted`: a place is a line and column at the time of resolving. Changes of files do not update it. After a change that adds lines, a change to a later group of the same project file is refused, or is done to another group that is now at that place. The session offers these requests in a row, without resolving in between (session.cpp 431-530), and the documentation of Project only says to get new project data.
C104, `rest_of_file_refuted`: in a file with both kinds of line endings, all lines are changed to the one of the host (projectfileupdater.cpp 148-161).
C105, `new_names_refuted`: names of new groups and dependencies are not escaped (projectfileupdater.cpp 230-237, 581-588).
C106, `one_property_refuted`: product names may contain dots. The key products.a.b.c is for the property c of the product a.b, and for the property c of the module b in the product a; if both exist, both change.
C106, `top_level_only_refuted`, `top_level_property_refuted`: the documentation (tutorial.qdoc 406-407) says that the prefix project is for the top-level project. It is applied to every sub-project as well (productscollector.cpp 160). A sub-project that does not have the property gives an unknown property error although the top-level project has it.
C107, `dotted_product_refuted`: a value for a product whose name has a dot gives an unknown product error, because the name is cut at the first dot and only products with exactly this name are looked at, so that the comparison that is meant for such names never sees them (productscollector.cpp 719-735, loaderutils.cpp 261-271). `renamed_product_refuted`: a value for the name of a product takes effect, then the name in the key is reported as unknown.
C107, `wrong_overrides_refuted`: values for modules that no product has, and keys without the name of a property (products.p), are ignored without any message.
C108, `final_read_refuted`: `expandBuildConfiguration` clears the tree of the configuration but not the final one, so that the latter is outdated if it was read before (setupprojectparameters.cpp 513-526).
C109, `capitals_refuted`: aliases are compared without case, the names themselves are not: AMD64 gives x86_64, X86_64 stays X86_64. `target_same_refuted`: the target name of armv7a is armv7 or arm, which are not names of the same architecture for `canonicalArchitecture`.
C110, `cross_compilers_refuted`: the target part of an architecture such as x64_x86 is taken including the underscore (`arch.mid(index)`, msvcinfo.cpp 553), so that it is never equal to the architecture that is asked for: installedMSVCs gives no cross compilers at all.
C112, `rfc1034_refuted`: the documentation promises an RFC 1034 compliant identifier. Labels that begin with a digit or dash, end with a dash, or are empty are not changed.
C113, `quoted_not_printable_refuted`: control characters without a simple escape are written as universal character names such as \u001B, which C does not allow below A0. `quoted_trigraph_refuted`: two question marks are not escaped, so that ??/ before the closing quote is an unterminated literal where trigraphs are known.
C114, `combined_backslash_refuted`: mergeCFiles writes names of files as string literals, but names in include lines have no escape sequences: for the file /a\b the combined source includes /a\\b.
C115, `object_files_refuted`: getHash converts its input to Latin-1, where all other characters become a question mark. Two directories that differ in such characters only (as in two names of Greek letters of the same length) have the same hash for every hash function, so the object files for sources with the same name are in conflict.
C116, `rules_see_numbers_refuted`: `asJsValue` has no case for floating point numbers, so that a property with a fraction, or with an integer that does not fit in 32 bits, is undefined in rules and commands, although it has the right value elsewhere in the project. It is the same for properties of commands. `long_exact`: integers of 64 bits from C++ are cut to 32 bits.
C116, `rules_see_null_refuted`: null in a list or object becomes undefined. `rules_see_texts_refuted`: texts end at the first null character. `rules_see_undefined`: an undefined list property is an empty list in rules.
C117, `int_values_refuted`: a property of type int accepts any number, with fractions, or NaN.
C118, `allowed_paths_refuted`: allowed values are checked for string and stringList properties only and silently ignored for others. `allowed_none_refuted`: an empty list of allowed values allows all values.
C119, `make_runs_references_refuted`: an argument that has the text `$(SRCDIR)` is expanded by make, because quoting takes back its own doubling of dollar signs for each such text. `make_runs_quote_refuted`, `make_runs_dollar_refuted`: quotes and dollar signs in the name of the project directory are neither escaped nor reported (only spaces are). `make_runs_flags_refuted`: a program that begins with an at sign, minus or plus loses it. `make_runs_newline_refuted`: arguments with line breaks are written as they are.
C119, `moved_sources_refuted`: directories are replaced anywhere in an argument, so that for the source directory /src also /src-extra is moved when another SRCDIR is given to make.
C120, `product_targets_refuted`: products my-app and my_app have the same target. `product_variants_refuted`: so have a multiplexed product and one with the id in its name. `product_named_all_refuted`: a product named all depends on itself. `product_line_refuted`: the id of a multiplexed product, which is text in base 64, is put in the makefile as it is; if it ends with an equals sign, make takes the line for the definition of a variable.
C121, `rule_read_refuted`: only spaces are escaped in targets and inputs, not dollar signs, number signs or colons.
C122, `clean_runs_refuted`: directories are not quoted for removing: with /b/my files/x the files /b/my and files/x are removed instead. `install_runs_refuted`: likewise for installing; only the install directory is checked for spaces.
C123, `lock_other_host_refuted`: the name of the host in the lock file is read and not used; on file systems where locks of open files do not work between hosts, the lock of a build running on another host is taken for stale and removed, and both have the build graph. `lock_removal_race_refuted`: without such locks the stale lock that is removed may have been replaced by a new one since it was looked at.
C124, `lock_race_refuted`: a build that ends removes its empty build directory between another one's creating it and its attempt to lock: that one fails with an unknown reason. `lock_own_pid_refuted`: after a crash a process with the same id and name (in a container, say) is told that the graph is locked by itself. `lock_wait_refuted`: with waiting, a lock left behind by a crash on another host is never removed.
C125, `cleanup_warning_refuted`: hidden files are not seen by the check for emptiness; the directory is kept, with a warning that an empty directory could not be removed.
C126, `product_job_limits_refuted`: of two items of a product with the numbers 2 and 0, in this order, the second one counts, and there is no limit, although the documentation says that the lowest number greater than zero is chosen: the new number is compared before zero is replaced by the greatest int. In the other order, and between modules, it is as documented.
C127, `limits_option_negative_refuted`: negative numbers are errors in items, but are accepted by the option, where they mean that no limit is set.
C128, `nested_prefix_refuted`, `prefix_never_applied`: the prefixes are put in a map ordered by text and the first one that matches is applied, which is the shortest. A prefix that begins with another one in the list (a subdirectory with its own place) has no effect, in whatever order they are given. `variant_list_refuted`: values of type varList are not looked into. `single_text_refuted`: values that refer to the product made for finding out what is exported are left out of lists, but not if they are single texts.
C129, `sub_names_order_refuted`: the projects to rename are in a set ordered by their addresses; for three projects of the same name it is not determined which one gets one underscore and which one two.
C130, `base_is_not_initial_refuted`: in the file directly on top of a built-in type, base is not the initial value of the property (it is undefined, or an empty list), although a file one step farther down gets it if no file in between sets the property.
C131, `written_value_lost_refuted`: a declaration without a value after a binding of the same name replaces the bound value, without an error; the other order is refused as a duplicate. `value_lost_to_properties_refuted`: if x has a value, a Properties item that sets x.y replaces it, without an error; the same outside of a Properties item is refused. `inherited_parts_lost_refuted`: setting x in a file drops x.y of the file it inherits from, without an error; the other way round is refused. `two_otherwise_refuted`: two Properties items for otherwise that set one property end in a failed internal check.
C132, `read_only_forgotten_refuted`: the declaration farthest up replaces those further down, with their flags. A property of a built-in type, or of a file farther up, that is declared anew as read-only can still be set by items that inherit it.
C134, `object_library_dropped_refuted`: if a product depends on a static library and on an object library that the static library depends on too, the object files are given to the linker only if the object library is looked at first. With the other order they are only in the archive, so those nothing refers to, e.g. with plugins that register themselves, are missing.
C136, `whole_archive_ignored_refuted`: cpp.linkWholeArchive of a product's own dependency on a static library has no effect if another dependency, looked at earlier, leads to the library without setting it.
C137, `msvc_whole_archive_ignored_refuted`: as in C136, the first dependency through which a static library is reached decides whether all of it is linked, even if the product itself asks for that.
C139, `progress_of_nothing_refuted`: a task with an effort of zero is shown as `task: 0%####... 100%`, since `setMaximum` does not erase the percentage that `initialize` has written. `progress_growing_maximum_refuted`: the number of characters to erase for 0% is that of the first percentage, without the blank in front. If the maximum grows while resolving so that the percentage falls back to 0%, a blank stays in the bar.
C140, `goto_order_matters_refuted`: the range of a `Depends` item starts at its type name. If this type comes from a file, the type name is a range of its own within that of the item. The first entry of the hash table that contains the position is taken, so it depends on the order of the hash table whether one gets to the file or to the module.
