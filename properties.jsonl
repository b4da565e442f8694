{"id": "C01", "title": "Commands only start when all their prerequisites are done", "statement": "During a build, the commands of a rule application are only started once every artifact and rule its outputs depend on, directly or through other artifacts, has been brought up to date in this very build, and none of these is touched again later in the build; this presumes that all outputs of one rule application have the same dependencies (without that, at least the dependencies of one output are up to date). A rule is only applied once everything it consumes is up to date for good.", "quantifier": "every build graph and every way rules change it, every parallelism, every job-pool configuration, every order in which running commands finish, and every outcome of every up-to-date check", "why_tests_cant": "the set of interleavings of command completions is exponential in the graph size; a test exercises a handful of schedules on a handful of graphs", "anchors": ["src/lib/corelib/buildgraph/executor.cpp: Executor::updateLeaves, scheduleJobs, executeRuleNode, potentiallyRunTransformer, finishNode", "src/lib/corelib/buildgraph/buildgraph.cpp: connect"]}
{"id": "C02", "title": "The requested parallelism is never exceeded", "statement": "At no point of a build are more command sequences running than the job count passed in the build options.", "quantifier": "every build graph, job count, schedule and failure pattern", "why_tests_cant": "the bound must hold at every instant of every schedule", "anchors": ["src/lib/corelib/buildgraph/executor.cpp: Executor::scheduleJobs, runTransformer, finishJob, addExecutorJobs"]}
{"id": "C03", "title": "Job pool limits are never exceeded", "statement": "If a running job uses job pool P and the product it belongs to has limit L > 0 for P, then at no time are more than L jobs that use pool P running concurrently.", "quantifier": "every build graph, assignment of job pools to commands, per-product limits and schedule", "why_tests_cant": "needs all interleavings of jobs of products with different limits for the same pool", "anchors": ["src/lib/corelib/buildgraph/executor.cpp: Executor::schedulingBlockedByJobLimit, updateJobCounts, finishJob"]}
{"id": "C04", "title": "A command sequence runs at most once per build", "statement": "Within one build, the commands of one rule application are started at most once, even if several of its outputs are scheduled, and never while they are already running.", "quantifier": "every build graph, including rule applications with several outputs, and every schedule", "why_tests_cant": "multi-output races depend on the completion order", "anchors": ["src/lib/corelib/buildgraph/executor.cpp: Executor::buildArtifact, potentiallyRunTransformer, finishTransformer, scheduleJobs"]}
{"id": "C05", "title": "After a failure without keep-going nothing new is started", "statement": "If a command fails and keep-going is off, no further command is started in this build; the commands already running are cancelled, and the build is reported as failed with that error.", "quantifier": "every build graph and every point in the schedule at which the failure arrives", "why_tests_cant": "the failure can arrive at any point of any schedule", "anchors": ["src/lib/corelib/buildgraph/executor.cpp: Executor::onJobFinished, handleError, finishJob, cancelJobs"]}
{"id": "C06", "title": "Keep-going never builds on top of failed prerequisites", "statement": "With keep-going, a failed command never leads to a dependent command being run, while every requested root that does not depend on a failed command is still built; if a requested root could not be built, the build is reported as failed.", "quantifier": "every build graph, every set of failing commands, every schedule", "why_tests_cant": "depends on which subset of commands fails and in which order", "anchors": ["src/lib/corelib/buildgraph/executor.cpp: Executor::finishJob, finishNode, checkForUnbuiltProducts, onJobFinished"]}
{"id": "C07", "title": "A build reported successful has built everything requested", "statement": "If a build finishes without error, all root nodes of the products to build are up to date. If no command fails and the graph is acyclic, the build terminates and reaches that state: it never gets stuck with work left.", "quantifier": "every acyclic build graph, product selection and schedule", "why_tests_cant": "liveness over unbounded schedules cannot be observed by finitely many runs", "anchors": ["src/lib/corelib/buildgraph/executor.cpp: Executor::doBuild, scheduleJobs, finishJob, finish, checkForUnbuiltProducts"]}
{"id": "C08", "title": "Cancelling stops the build", "statement": "Once a build is cancelled, no further command is started, and the build finishes after the running commands have ended, reporting failure if anything requested is left unbuilt or if the cancellation was noticed as a user request.", "quantifier": "every cancellation instant of every schedule", "why_tests_cant": "cancellation may arrive at every point of every interleaving", "anchors": ["src/lib/corelib/buildgraph/executor.cpp: Executor::cancelJobs, checkForCancellation, finishJob, finish"]}
{"id": "C09", "title": "Up-to-date decision", "statement": "Commands of a rule application that are considered for a build are executed exactly if: it is flagged always-run or marked for re-run, or an output that has to be kept up to date is missing or older than one of its dependencies, or the commands themselves changed, or none of the outputs is up to date. Otherwise they are not executed.", "quantifier": "every set of outputs, flags and timestamps of outputs, inputs and file dependencies", "why_tests_cant": "the decision depends on unboundedly many timestamps", "anchors": ["src/lib/corelib/buildgraph/executor.cpp: Executor::isUpToDate, mustExecuteTransformer"]}
{"id": "C10", "title": "A second build with nothing changed runs no commands", "statement": "Building again after a successful build, with no source, property or option change, executes no commands, apart from those of rules declared always-run and of rules depending on their outputs. (Every rule application considered has an output that is to be kept up to date, and the files found by dependency scanning exist.)", "quantifier": "every build graph and every schedule of the first build", "why_tests_cant": "depends on all timestamps recorded by an arbitrary first build", "anchors": ["src/lib/corelib/buildgraph/executor.cpp: Executor::isUpToDate, mustExecuteTransformer, finishTransformer"]}
{"id": "C11", "title": "Incremental builds are equivalent to clean builds", "statement": "After changing any set of source files (with fresh timestamps) and rebuilding, every generated artifact that transitively depends on a changed source has been regenerated, so the outputs have the same content as those of a clean build.", "quantifier": "every build graph, every history of source changes and builds", "why_tests_cant": "quantifies over histories of edits and builds", "anchors": ["src/lib/corelib/buildgraph/executor.cpp: Executor::isUpToDate, buildArtifact, finishTransformer, retrieveSourceFileTimestamp"]}
{"id": "C12", "title": "Product selection builds dependencies, minimally where asked", "statement": "When only some products are requested, exactly these products and their transitive dependencies take part in the build; a dependency is built completely if and only if there is a chain of full (not minimal) dependencies from a requested product to it.", "quantifier": "every product dependency graph (including diamonds mixing full and minimal edges) and every selection", "why_tests_cant": "mixing minimal and full edges in arbitrary graphs gives unboundedly many cases", "anchors": ["src/lib/corelib/buildgraph/executor.cpp: Executor::setupAuxiliaryProducts"]}
{"id": "C13", "title": "Job limit precedence", "statement": "The limit that applies to a pool in a product is the one from the build options if given, else the one from the preferences, else the one set in the product; with 'project job limits take precedence', a limit set in the product wins over both. A limit of zero means unlimited.", "quantifier": "every combination of limits from the three sources and every pool name", "why_tests_cant": "the maps are unbounded and overlap arbitrarily", "anchors": ["src/lib/corelib/buildgraph/executor.cpp: Executor::setupJobLimits", "src/lib/corelib/tools/joblimits.cpp: JobLimits::update, setJobLimit, getLimit, transformLimit"]}
{"id": "C14", "title": "Build graph edges stay consistent and acyclic", "statement": "Connecting nodes through the safe interface never creates a dependency cycle; the parent and child relations always mirror each other.", "quantifier": "every sequence of connect, safe-connect and disconnect operations", "why_tests_cant": "needs all operation histories", "anchors": ["src/lib/corelib/buildgraph/buildgraph.cpp: connect, safeConnect, existsPath, disconnect"]}
{"id": "C15", "title": "Dependency cycles are always reported, and only real ones", "statement": "The cycle check over a build graph reports an error if and only if some node reachable from the roots lies on a dependency cycle; it always terminates, and the node it names first lies on a cycle.", "quantifier": "every finite directed graph", "why_tests_cant": "all graph shapes", "anchors": ["src/lib/corelib/buildgraph/cycledetector.cpp: CycleDetector::visitProject, visitNode, cycle", "src/lib/corelib/buildgraph/buildgraph.cpp: findPath"]}
{"id": "C16", "title": "Rules are chained exactly by file tags", "statement": "A rule depends on another rule of the product if and only if one of its (non-excluded) input tags is produced by that rule; rules that are not needed for the product's type are not instantiated; a cyclic chain of rules is reported as an error.", "quantifier": "every set of rules and product types", "why_tests_cant": "all rule sets", "anchors": ["src/lib/corelib/buildgraph/rulegraph.cpp: RuleGraph::build, accept, traverse", "src/lib/corelib/buildgraph/projectbuilddata.cpp: CreateRuleNodes"]}
{"id": "C17", "title": "No two generated artifacts claim the same file", "statement": "Whatever sequence of files is registered and removed, a path never belongs to two generated artifacts; a generated artifact is rejected with an error exactly if another artifact with its path is registered at that time, source files and file dependencies never are; and looking up a path finds exactly the files registered for it.", "quantifier": "every sequence of insertions and removals", "why_tests_cant": "order of insertions matters", "anchors": ["src/lib/corelib/buildgraph/projectbuilddata.cpp: ProjectBuildData::insertIntoLookupTable, removeFromLookupTable, lookupFiles"]}
{"id": "C18", "title": "The tag index of a product is exact", "statement": "At any time, looking up a file tag in a product yields exactly the artifacts of the product that currently carry the tag, whatever sequence of adding and removing artifacts and tags happened before.", "quantifier": "every history of artifact insertions, removals and file tag changes", "why_tests_cant": "all operation histories", "anchors": ["src/lib/corelib/buildgraph/productbuilddata.cpp: addArtifact, addFileTagToArtifact, removeArtifactFromSet, removeArtifact", "src/lib/corelib/buildgraph/artifact.cpp: addFileTag, removeFileTag, setFileTags"]}
{"id": "C19", "title": "Removing an artifact removes exactly what only existed because of it", "statement": "Removing artifacts also removes, transitively, those dependents that have no input of their rule application or no dependency left, and nothing else; no edge, lookup table, product, rule or rule application refers to a removed artifact as node, input or output; dependents that stay will be rebuilt.", "quantifier": "every build graph and removed artifact", "why_tests_cant": "all graph shapes", "anchors": ["src/lib/corelib/buildgraph/projectbuilddata.cpp: removeArtifactAndExclusiveDependents, removeArtifact, disconnectArtifact"]}
{"id": "C20", "title": "Rule outputs stay inside the build directory", "statement": "For every file path a rule may declare (absolute, with dots, with redundant slashes), the output artifact is created strictly inside the project's build directory or the rule application fails; ordinary relative paths are accepted.", "quantifier": "every path string and build directory", "why_tests_cant": "all strings", "anchors": ["src/lib/corelib/buildgraph/rulesapplicator.cpp: RulesApplicator::resolveOutPath", "src/lib/corelib/tools/fileinfo.cpp: FileInfo::resolvePath"]}
{"id": "C21", "title": "Values survive the build graph file", "statement": "Every value written to the build graph file (integers, strings including the null/empty distinction, string lists, environments, variants, nested containers, optionals) is read back identically, whatever was written before or after it. Only null strings as elements of string lists or as values of variables may come back as empty ones and vice versa.", "quantifier": "every finite sequence of values", "why_tests_cant": "string interning makes the encoding of a value depend on all earlier values", "anchors": ["src/lib/corelib/tools/persistence.h: PersistentPool::store, load, idStoreValue, idLoadValue, PPHelper", "src/lib/corelib/tools/persistence.cpp: storeVariant, loadVariant"]}
{"id": "C22", "title": "Shared and cyclic object graphs survive the build graph file", "statement": "An arbitrary object graph with sharing and cycles written to the build graph file is read back as an isomorphic graph: same contents, same sharing; writing it comes to an end. Each object is referred to by raw or by shared pointers, not both.", "quantifier": "every finite object graph", "why_tests_cant": "sharing patterns are unbounded", "anchors": ["src/lib/corelib/tools/persistence.h: PersistentPool::storeSharedObject, idLoad, idLoadS"]}
{"id": "C23", "title": "An interrupted save never yields a half-read build graph", "statement": "If writing the build graph is interrupted at any point, a later load either fails cleanly or sees the complete new graph (or the old one, if saving had not begun to replace it); it never accepts a partially written one. After a save that reported success it sees the new graph.", "quantifier": "every build graph content and every crash point of the save", "why_tests_cant": "every prefix of the write sequence is a crash point", "anchors": ["src/lib/corelib/tools/persistence.cpp: PersistentPool::setupWriteStream, finalizeWriteStream, load"]}
{"id": "C24", "title": "File saver is atomic and only touches changed files", "statement": "Saving through the file saver leaves the target with the old or the new content at every crash point, never a mixture (where the system cannot rename onto an existing file, it may also be missing, with the new content in the temporary file); if the content is unchanged and overwriting was not requested the file is not touched; after a successful commit the target has exactly the new content, except that a missing file is not created for empty content.", "quantifier": "every old and new content, every crash point", "why_tests_cant": "all crash points", "anchors": ["src/lib/corelib/tools/filesaver.cpp: FileSaver::open, commit"]}
{"id": "C25", "title": "The set container behaves like a mathematical set", "statement": "Membership, insertion, removal, union, intersection, difference, containment and equality of the set container agree with those of finite sets, for every history of operations.", "quantifier": "every element type with a strict order, every operation history", "why_tests_cant": "all histories", "anchors": ["src/lib/corelib/tools/set.h: Set"]}
{"id": "C26", "title": "Version numbers are totally ordered and printable", "statement": "Version comparison is a total order, lexicographic in major, minor, patch, build; parsing the textual form of a version gives back the same version, and malformed strings give an invalid version.", "quantifier": "every version and every string", "why_tests_cant": "infinite domain", "anchors": ["src/lib/corelib/tools/version.cpp: Version::fromString, toString, compare"]}
{"id": "C27", "title": "Version range narrowing is intersection", "statement": "Narrowing the version range of a dependency by another range accepts exactly the versions accepted by both.", "quantifier": "every pair of ranges and every version", "why_tests_cant": "infinite domain", "anchors": ["src/lib/corelib/tools/version.cpp: VersionRange::narrowDown", "src/lib/corelib/loader/dependenciesresolver.cpp"]}
{"id": "C28", "title": "Path decomposition and resolution laws", "statement": "Directory and file name parts recompose to the path; resolving a relative path against a base directory behaves like stepwise directory traversal; absolute paths are unaffected by the base.", "quantifier": "every path string", "why_tests_cant": "all strings", "anchors": ["src/lib/corelib/tools/fileinfo.cpp: FileInfo::fileName, path, splitIntoDirectoryAndFileName, baseName, completeBaseName, suffix, completeSuffix, resolvePath, isAbsolute"]}
{"id": "C29", "title": "Installation stays inside the install root", "statement": "The target path computed for an installed artifact always lies inside the install root, or an error is reported; with an install source base, the directory structure below the base is reproduced exactly.", "quantifier": "every install root, prefix, directory, source base and file path", "why_tests_cant": "all strings", "anchors": ["src/lib/corelib/buildgraph/productinstaller.cpp: ProductInstaller::targetFilePath"]}
{"id": "C49", "title": "Installed files go where prefix, directory and source base say", "statement": "With an install prefix and directory that do not step upwards, a file is installed into exactly the directory reached from the install root via prefix and install directory: under its own name, or, with an install source base, under its path relative to the base. It is then inside the install root.", "quantifier": "every install root, prefix, directory, source base and file path", "why_tests_cant": "all strings", "anchors": ["src/lib/corelib/buildgraph/productinstaller.cpp: ProductInstaller::targetFilePath"]}
{"id": "C30", "title": "Clean removes what was generated, and nothing else", "statement": "Cleaning removes from disk only generated artifacts of the selected products, files of earlier artifacts of these products and directories below the build directory that contain nothing; never any other file. When it reports success, all of these files are gone, the artifacts count as not built, and no directory on the way to one of them is left without a file in it. When nobody cancels, everything may be removed and there are only files and directories, it succeeds.", "quantifier": "every file system state, artifact set and options", "why_tests_cant": "all directory trees", "anchors": ["src/lib/corelib/buildgraph/artifactcleaner.cpp: CleanupVisitor, ArtifactCleaner::cleanup, removeEmptyDirectories"]}
{"id": "C31", "title": "Stale empty directories are removed bottom-up and nothing else", "statement": "After outputs disappeared, exactly those directories below the build directory are removed that contained one of them, or a directory that is removed, and contain nothing else; the build directory itself and all other directories stay.", "quantifier": "every directory tree and set of removed files", "why_tests_cant": "all directory trees", "anchors": ["src/lib/corelib/buildgraph/emptydirectoriesremover.cpp"]}
{"id": "C32", "title": "Unix shell quoting is exact", "statement": "For every list of arguments, a POSIX shell splits the quoted command line into exactly the original words, without expanding anything in them.", "quantifier": "every argument list, every string", "why_tests_cant": "all strings", "anchors": ["src/lib/corelib/tools/shellutils.cpp: shellQuoteUnix, shellQuote, hasSpecialChars"]}
{"id": "C33", "title": "Windows command line quoting is exact", "statement": "For every list of arguments without percent signs and line breaks, passing the quoted command line through the command interpreter and splitting it by the Windows C runtime rules yields exactly the original arguments.", "quantifier": "every argument list of strings without percent signs and line breaks", "why_tests_cant": "all strings", "anchors": ["src/lib/corelib/tools/shellutils.cpp: shellQuoteWin"]}
{"id": "C34", "title": "Session protocol framing", "statement": "For every sequence of messages sent over the session protocol and every way the byte stream is chopped up in transit, the receiver decodes exactly the sent messages in order.", "quantifier": "every message sequence and every fragmentation", "why_tests_cant": "all fragmentations", "anchors": ["src/app/qbs/sessionpacket.cpp: SessionPacket::parseInput, createPacket", "src/app/qbs/sessionpacketreader.cpp"]}
{"id": "C35", "title": "Process launcher protocol framing", "statement": "For every sequence of launcher packets and every fragmentation of the byte stream, the receiver extracts exactly the sent packets, with type, token and payload unchanged.", "quantifier": "every packet sequence and every fragmentation", "why_tests_cant": "all fragmentations", "anchors": ["src/lib/corelib/tools/launcherpackets.cpp: LauncherPacket::serialize, PacketParser::parse"]}
{"id": "C36", "title": "Language server protocol framing", "statement": "For every sequence of language server messages and every fragmentation of the byte stream, the receiver decodes exactly the sent contents in order.", "quantifier": "every message sequence and every fragmentation", "why_tests_cant": "all fragmentations", "anchors": ["src/shared/lsp/basemessage.cpp: BaseMessage::parse, header", "src/app/qbs/lspserver.cpp"]}
{"id": "C37", "title": "Text edits are applied at the positions the caller named", "statement": "Applying a change set of non-overlapping edits, none of which inserts text at the very start of a range replaced by an earlier one, yields the text obtained by performing all the edits simultaneously on the original text; overlapping edits are reported by the call that adds them.", "quantifier": "every text and every list of insert, remove, replace, copy, move and flip operations", "why_tests_cant": "all operation lists", "anchors": ["src/lib/corelib/api/changeset.cpp: ChangeSet::hasOverlap, doReplace, convertToReplace, apply_helper"]}
{"id": "C38", "title": "Profile inheritance", "statement": "Looking up a key in a profile yields the value of the first profile along the base-profile chain defining it, else the default; a circular or dangling chain that is followed is reported as an error instead of looping. The keys listed for a profile are those of all profiles of the chain, each of them has a value, and the build configuration for a profile consists of exactly these.", "quantifier": "every settings content, including cyclic inheritance", "why_tests_cant": "all inheritance graphs", "anchors": ["src/lib/corelib/tools/profile.cpp: Profile::possiblyInheritedValue, allKeysInternal, extendAndCheckProfileChain"]}
{"id": "C39", "title": "Settings scopes", "statement": "A settings lookup returns the user value if present, else the system value, else the default; list values from both scopes are concatenated user-first. This holds after any sequence of changes; removing a key removes the group of that name and nothing else; the lists of keys and of profiles are exactly those with values, the former sorted and without duplicates.", "quantifier": "every settings content and scope selection", "why_tests_cant": "all contents", "anchors": ["src/lib/corelib/tools/settings.cpp: Settings::value, fixupKeys"]}
{"id": "C40", "title": "Multiplexing covers every configuration exactly once", "statement": "A product multiplexed over several axes is instantiated once for every combination of axis values, with duplicates removed, in order, and each instance gets a different configuration id.", "quantifier": "every number of axes and values", "why_tests_cant": "all axis combinations", "anchors": ["src/lib/corelib/loader/productitemmultiplexer.cpp: extractMultiplexInfo, combine, multiplex, toIdString"]}
{"id": "C41", "title": "Rules change tracking re-runs exactly when a tracked value changed", "statement": "After re-resolving, the commands of a rule application are re-created/re-run if some property, import, file or environment variable they accessed has changed, and not if all accessed values are the same.", "quantifier": "every set of tracked accesses and new values", "why_tests_cant": "all property maps", "anchors": ["src/lib/corelib/buildgraph/transformerchangetracking.cpp: TrafoChangeTracker"]}
{"id": "C42", "title": "Dependency scan resolution prefers artifacts", "statement": "An include found by scanning is resolved to an artifact of the same product if there is one in the directory, else to an artifact of another product, else a known file dependency, else an existing file; scanning terminates on cyclic includes and finds exactly the transitively included files.", "quantifier": "every include graph, including cyclic ones", "why_tests_cant": "all include graphs", "anchors": ["src/lib/corelib/buildgraph/inputartifactscanner.cpp: resolveDepencency, InputArtifactScanner::scan, resolveScanResultDependencies"]}
{"id": "C43", "title": "pkg-config files: substitution and word splitting", "statement": "Variable substitution in .pc files replaces every ${name} by the value visible at that point and $$ by a dollar sign; splitting compiler and linker flags follows the quoting rules, so that quoted arguments are recovered exactly.", "quantifier": "every .pc line", "why_tests_cant": "all strings", "anchors": ["src/lib/pkgconfig/pcparser.cpp: trimAndSubstitute, splitCommand, readOneLine, splitModuleList, doParseLibs"]}
{"id": "C44", "title": "JavaScript literals", "statement": "A string converted to a JavaScript literal evaluates to the same string.", "quantifier": "every string", "why_tests_cant": "all strings", "anchors": ["src/lib/corelib/tools/jsliterals.cpp: toJSLiteral"]}
{"id": "C45", "title": "Rule application reacts to exactly the changed inputs", "statement": "When a rule is applied again, it is re-run for the inputs that were added, changed or removed; outputs of removed inputs disappear; if nothing changed it is not run at all.", "quantifier": "every set of old and new inputs, flags and timestamps", "why_tests_cant": "histories of input sets", "anchors": ["src/lib/corelib/buildgraph/rulenode.cpp: RuleNode::apply, changedInputArtifacts, currentInputArtifacts, removeOldInputArtifact"]}
{"id": "C46", "title": "Module property values: highest priority wins", "statement": "Among the values a property of a module receives from the items depending on the module, the one with the highest priority becomes the value, and for lists all are concatenated in decreasing priority; values set internally or on the command line cannot be overridden; the result does not depend on the order of processing.", "quantifier": "every set of values and every processing order", "why_tests_cant": "all orders", "anchors": ["src/lib/corelib/loader/modulepropertymerger.cpp: mergePropertyFromLocalInstance, doFinalMerge"]}
{"id": "C47", "title": "Process launcher lifecycle", "statement": "For every interleaving of start and stop requests, timeouts and process events, each accepted start leads to at most one termination report, and a process that ignores stop requests is killed and finally given up.", "quantifier": "every event interleaving", "why_tests_cant": "all interleavings", "anchors": ["src/libexec/qbs_processlauncher/launchersockethandler.cpp"]}
{"id": "C48", "title": "Reusing results of an earlier build graph", "statement": "After re-resolving a project, the recorded results of an artifact are reused only if the rule application that would produce it is the same as before: same commands, same inputs and same tracked properties; otherwise it is rebuilt.", "quantifier": "every old and new build graph", "why_tests_cant": "all pairs of graphs", "anchors": ["src/lib/corelib/buildgraph/artifactrescuer.cpp: ArtifactRescuer::rescueOldBuildData"]}
{"id": "C50", "title": "The reported dependency cycle is a cycle", "statement": "When the cycle check fails, each two successive nodes of the chain that is printed are connected by a dependency.", "quantifier": "every finite directed graph", "why_tests_cant": "depends on the order in which the graph is traversed", "anchors": ["src/lib/corelib/buildgraph/cycledetector.cpp: CycleDetector::visitNode, cycle", "src/lib/corelib/buildgraph/buildgraph.cpp: findPath"]}
{"id": "C51", "title": "A dry run of clean removes nothing", "statement": "Cleaning with the dry-run option changes nothing on disk and nothing in the build graph.", "quantifier": "every file system state and artifact set", "why_tests_cant": "all directory trees", "anchors": ["src/lib/corelib/buildgraph/artifactcleaner.cpp: CleanupVisitor, ArtifactCleaner::removeEmptyDirectories"]}
{"id": "C52", "title": "Preferences of profiles take precedence", "statement": "A preference is that of the given profile or of its bases, else the general one from the settings, else the default; search paths of the profile are followed by the general ones. The limit for a job pool is the one of the profile if it is not negative, else the general one.", "quantifier": "every settings content and profile", "why_tests_cant": "all contents", "anchors": ["src/lib/corelib/tools/preferences.cpp: Preferences::getPreference, jobLimits, pathList"]}
{"id": "C53", "title": "A value set with the config command takes effect", "statement": "After setting a key to a value with the config command, reading it as a preference or a property of a profile yields that value.", "quantifier": "every key and value", "why_tests_cant": "types are lost on the way through the settings file", "anchors": ["src/lib/corelib/tools/settingsrepresentation.cpp: representationToSettingsValue, settingsValueToVariant", "src/lib/corelib/tools/preferences.cpp: Preferences::getPreference, jobLimits", "src/lib/corelib/tools/profile.cpp: Profile::localValue"]}
{"id": "C54", "title": "Exported settings can be imported again", "statement": "Settings of one scope that were exported to a text file and are imported again are the same for every key, if names and values are on one line; everything else is removed and settings of the other scope are untouched.", "quantifier": "every settings content", "why_tests_cant": "all contents, names and values", "anchors": ["src/app/config/configcommandexecutor.cpp: ConfigCommandExecutor::exportSettings, importSettings", "src/lib/corelib/tools/settingsrepresentation.cpp: settingsValueToRepresentation, representationToSettingsValue"]}
{"id": "C55", "title": "A dependency on a multiplexed product selects the right instances", "statement": "A Depends item that names a multiplexed product stands for the instance with the same configuration id, else the only instance whose configuration has no property with a different value; if there is none or there are several, an error is reported. A product that has values for all properties that the dependency is multiplexed by thus gets exactly the instance for these values. If profiles are given, the item stands for all instances with these profiles; a product that is not multiplexed depends on the instance that is not multiplexed, or on all.", "quantifier": "every product and every set of instances, axes and values", "why_tests_cant": "all configurations", "anchors": ["src/lib/corelib/loader/dependenciesresolver.cpp: adjustDependsItemForMultiplexing"]}
{"id": "C56", "title": "pkg-config files: required modules", "statement": "The modules a .pc file requires or conflicts with are read as they are written: each name with its comparison and version, however they are separated by spaces and commas.", "quantifier": "every list of modules and every choice of separators", "why_tests_cant": "all lists and all separators", "anchors": ["src/lib/pkgconfig/pcparser.cpp: splitModuleList, parseModuleList, comparisonFromString"]}
{"id": "C57", "title": "pkg-config files: flags, system root and system paths", "statement": "Every linker or compiler flag of a .pc file is classified as what it is, no flag is lost or reordered; with a system root every absolute include or library path is below it and nothing else changes; exactly the library paths of the system are left out.", "quantifier": "every list of arguments, every system root and every set of system paths", "why_tests_cant": "all lists of arguments", "anchors": ["src/lib/pkgconfig/pcparser.cpp: doParseLibs, parseCFlags", "src/lib/pkgconfig/pcpackage.cpp: prependSysroot, removeSystemLibraryPaths"]}
{"id": "C58", "title": "pkg-config: which package is found", "statement": "A package is found exactly if one of the search paths has a file of that name; if several have one, the first search path wins.", "quantifier": "every set of files and every name", "why_tests_cant": "all sets of files, and all orders std::sort may produce", "anchors": ["src/lib/pkgconfig/pkgconfig.cpp: getPackage, findPackages"]}
{"id": "C59", "title": "Properties items", "statement": "A list property consists of the values of all Properties items whose condition holds, the value set outside, and the values from modules, in this order; a scalar property has the value of the first Properties item that matches, otherwise that of the one without a condition, otherwise the one set outside; overrideListProperties leaves out the values of modules.", "quantifier": "every sequence of Properties items, every combination of conditions and values", "why_tests_cant": "all combinations of conditions, and all sequences of evaluations", "anchors": ["src/lib/corelib/language/evaluator.cpp: ValueEvaluator::handleAlternatives, mergeWithCandidates, doHandle, evaluateJSSourceValue", "src/lib/corelib/language/value.cpp: JSSourceValue::addAlternative"]}
{"id": "C60", "title": "Where a module property value comes from", "statement": "qbs knows of every value of a module property whether it was set by the profile, on the command line, or internally, whatever values were set before for this or other properties.", "quantifier": "every sequence of settings of properties and instantiations of modules", "why_tests_cant": "state shared between properties", "anchors": ["src/lib/corelib/language/value.cpp: VariantValue::create, clone", "src/lib/corelib/language/item.cpp: overrideProperties", "src/lib/corelib/loader/moduleloader.cpp: profileModuleProperties"]}
{"id": "C61", "title": "Loading the modules of a product", "statement": "Loading the modules that a product needs directly or indirectly ends, also if they need each other. If it succeeds, every module that is needed is there exactly once, nothing else is there, and every module comes after all the modules that it needs itself. A cycle and a name that is a prefix of another one are errors, never a wrong result.", "quantifier": "every set of modules and products with every Depends relation, and every order of Depends items", "why_tests_cant": "all Depends graphs, cyclic ones included, of any size", "anchors": ["src/lib/corelib/loader/dependenciesresolver.cpp: resolve, handleResolvedDependencies, loadModule, findExistingModule, checkForModuleNamePrefixCollision"]}
{"id": "C62", "title": "Required and optional modules", "statement": "A module that is required, over whatever chain of required Depends items, is present after a successful setup, otherwise there is an error; a module that is only wanted optionally never leads to an error; a present module is fully usable, including everything that it requires; a module that is needed only by modules that are not present is not present.", "quantifier": "every Depends graph with every combination of required and optional items, failing probes, versions and validations", "why_tests_cant": "all combinations of required and optional items over all chains", "anchors": ["src/lib/corelib/loader/dependenciesresolver.cpp: loadModule, updateModule, findMatchingModule, checkProductDependency", "src/lib/corelib/loader/productresolver.cpp: runModuleProbes, validateModule, updateModulePresentState, handleModuleSetupError"]}
{"id": "C63", "title": "Versions of modules", "statement": "The version of a present module is within the ranges of all Depends items that name it. If several module files have the name, the one is taken whose version fits, then the one with the highest priority, then the one that is found first in the search paths, independently of the order of the files; if that does not decide, there is an error.", "quantifier": "every set of version ranges and every list of candidate files", "why_tests_cant": "all sets of ranges and all lists of files in all orders", "anchors": ["src/lib/corelib/loader/dependenciesresolver.cpp: updateModule", "src/lib/corelib/loader/moduleloader.cpp: chooseModuleCandidate, ModuleLoader::load", "src/lib/corelib/loader/productresolver.cpp: ProductResolverStage1::start"]}
{"id": "C64", "title": "Precedence between modules", "statement": "If two modules set the same property of a third one, the module that is farther away from the product gives way; in particular a module wins over the modules that it needs itself.", "quantifier": "every Depends graph", "why_tests_cant": "all graphs in which modules are reached over chains of different lengths", "anchors": ["src/lib/corelib/loader/dependenciesresolver.cpp: loadModule, updateModule", "src/lib/corelib/language/value.cpp: Value::calculatePriority", "src/lib/corelib/loader/modulepropertymerger.cpp: compareValuePriorities"]}
{"id": "C65", "title": "Included files of a C++ file", "statement": "The scan of a source file ends, and finds exactly the files that its #include and #import directives name, in their order and with the right kind of quotes: nothing that is only in a comment, a string, a character or a raw string, and nothing is missed because of comments, line continuations, literals, unclosed quotes in other directives, digraphs or characters beyond ASCII before it.", "quantifier": "every text that is a sequence of lines of C++ tokens, of any length", "why_tests_cant": "all source texts; which combinations of lexical elements before a directive hide it", "anchors": ["src/lib/corelib/cppscanner/Lexer.cpp: Lexer::scan, scan_helper, scanUntilQuote, scanRawStringLiteral, scanNumericLiteral, scanBackslash, scanCppComment", "src/lib/corelib/cppscanner/cppscanner.cpp: doScanCppFile, scanCppFile", "src/plugins/scanner/cpp/cppscannerplugin.cpp"]}
{"id": "C66", "title": "C++20 modules of a C++ file", "statement": "The scan of a source file finds the module and partition that the file belongs to, whether the file is a module interface, and exactly the modules, partitions and header units that it imports, in their order; a partition is imported from the module that the file belongs to; a file that is not an interface needs its own module.", "quantifier": "every text that is a sequence of lines of C++ tokens, of any length", "why_tests_cant": "all source texts", "anchors": ["src/lib/corelib/cppscanner/cppscanner.cpp: parseModule, parseImport, doScanCppFile"]}
{"id": "C67", "title": "Wildcards in lists of files", "statement": "A group whose list of files has wildcards contains exactly the files that one of its patterns matches and none of its patterns to exclude, each once: a component matches the names in one directory, a double star any number of directories, files and directories whose name starts with a dot are left out unless named, links to directories are not followed by a double star, and nothing in the build directory is picked up. Expanding ends normally for all patterns. If no change is reported later, expanding again gives the same files.", "quantifier": "every directory tree, every list of patterns and excluded patterns", "why_tests_cant": "all trees of any depth and all patterns of any length", "anchors": ["src/lib/corelib/language/language.cpp: SourceWildCards::expandPatterns, hasChangedSinceExpansion", "src/lib/corelib/tools/fileinfo.cpp: FileInfo::isPattern"]}
{"id": "C68", "title": "Source files of a product", "statement": "Resolving the groups of a product succeeds if and only if the files that enabled groups name exist and no file is there twice, be it named or matched by a pattern; then the source files of the product are exactly those of the enabled groups, with condition and prefix taken over from the groups around them. A disabled group never makes resolving fail because of its files.", "quantifier": "every tree of groups", "why_tests_cant": "all nestings of groups with inherited conditions and prefixes", "anchors": ["src/lib/corelib/loader/productresolver.cpp: resolveGroup, resolveGroupFully, createSourceArtifact"]}
{"id": "C69", "title": "File tags of source files", "statement": "A source file has the tags of its group, which takes over those of the groups around it unless it overrides them; if there are none, it gets the tags of the file taggers that match its name and have the highest priority among those, no matter in which order these are declared; if that yields nothing it is tagged as unknown. Groups with a filter add tags to the files that have one of the tags of the filter.", "quantifier": "every list of file taggers with any priorities, every tree of groups, every list of filters", "why_tests_cant": "all lists of taggers in all orders", "anchors": ["src/lib/corelib/language/language.cpp: ResolvedProduct::fileTagsForFileName", "src/lib/corelib/loader/productresolver.cpp: applyFileTaggers, finalizeArtifactProperties, resolveGroupFully"]}
{"id": "C70", "title": "Resolving products in parallel ends", "statement": "Resolving the products of a project in several threads ends in whatever order the threads make progress, also if products depend on each other in a cycle: it never gets stuck, it does not go on for ever, no internal check fails, and in the end every product is resolved. At no time are there more jobs than allowed, and no two of them work on the same product or with the same loader state.", "quantifier": "every set of products with every dependency relation (single, by types, over modules), every number of jobs, every interleaving of the threads", "why_tests_cant": "all interleavings of scheduler and threads, and termination", "anchors": ["src/lib/corelib/loader/productsresolver.cpp: ProductsResolver::runScheduler, scheduleNext, tryToReserveLoaderState, startJob, handleFinishedThreads, unblockProductWaitingForLoaderState, unblockProductsWaitingForDependency", "src/lib/corelib/loader/dependenciesresolver.cpp: DependenciesResolver::resolve, handleResolvedDependencies, findMatchingProduct"]}
{"id": "C71", "title": "Every product is resolved once", "statement": "A product is resolved exactly once: when the resolving of a project has ended, each of its products is among the resolved ones exactly once, and no product is worked on after it was resolved.", "quantifier": "every set of products and every interleaving of the threads", "why_tests_cant": "all interleavings", "anchors": ["src/lib/corelib/loader/productsresolver.cpp: ProductsResolver::scheduleNext, handleFinishedThreads, unblockProductsWaitingForDependency"]}
{"id": "C72", "title": "Order of resolving and dependency cycles", "statement": "A product without error is resolved after all the products that it depends on by name. If products depend on each other in a cycle, at least one of them has an error; if there is no cycle, no error about one is reported, whatever the number of threads.", "quantifier": "every set of products and every interleaving of the threads", "why_tests_cant": "all interleavings", "anchors": ["src/lib/corelib/loader/dependenciesresolver.cpp: DependenciesResolver::findMatchingProduct, resolve", "src/lib/corelib/loader/productsresolver.cpp: ProductsResolver::scheduleNext, queueProductForScheduling"]}
{"id": "C73", "title": "A stored project that is used as it is would be the same if it were resolved again", "statement": "If loading a stored project does not resolve it again, then resolving it from its files in their present state, with the present environment and settings, would give the same project: no change of a project, module or imported file, of the environment, of the properties or profiles, of the existence or time of files that were asked about, of the contents of directories or of what wildcards match goes unnoticed.", "quantifier": "every resolver that asks for files, directories, environment and configuration in an order that depends on the answers, every state of the file system before and after, all parameters", "why_tests_cant": "all later states of the file system and all dependencies of the resolver on it", "anchors": ["src/lib/corelib/buildgraph/buildgraphloader.cpp: BuildGraphLoader::load, trackProjectChanges, hasEnvironmentChanged, hasFileExistsResultChanged, hasDirectoryEntriesResultChanged, hasFileLastModifiedResultChanged, hasCanonicalFilePathResultChanged, hasProductFileChanged, hasBuildSystemFileChanged, checkConfigCompatibility", "src/lib/corelib/language/scriptengine.cpp: ScriptEngine::addFileExistsResult, addCanonicalFilePathResult", "src/lib/corelib/jsextensions/file.cpp"]}
{"id": "C74", "title": "A stored project is not resolved again without a reason", "statement": "If nothing that the resolver asked for has changed, and nothing is forced, then a stored project is used as it is. Parameters that contradict the stored ones are rejected exactly if the stored ones are to be used and the given properties or profile differ. Forcing takes effect in all cases, and with the restore-only behavior the stored project is always used.", "quantifier": "every resolver, every state of the file system, all parameters", "why_tests_cant": "all resolvers and parameters", "anchors": ["src/lib/corelib/buildgraph/buildgraphloader.cpp: BuildGraphLoader::load, trackProjectChanges, checkConfigCompatibility"]}
{"id": "C75", "title": "Which products are set up anew after resolving again", "statement": "When a stored project was resolved again, the build data of a product is kept if and only if the product and the ones it depends on are set up from the same things as before: same type, install values, rules, scanners, dependencies and paths of source files, no matter in which order these are. If the data is kept, exactly the source files whose tags or properties are different are updated, and the generated files are updated if the properties or the groups with a file tags filter are different.", "quantifier": "every list of products with every acyclic dependency relation, before and after", "why_tests_cant": "all dependency graphs, all combinations of changes", "anchors": ["src/lib/corelib/buildgraph/buildgraphloader.cpp: checkAllProductsForChanges, checkProductForChanges, checkForPropertyChanges, checkForScannerChanges, checkProductForChangesInSourceFiles, dependenciesAreEqual, makeChangedProductsListComplete, checkProductForChangedDependency", "src/lib/corelib/language/language.cpp: listsAreEqual"]}
{"id": "C76", "title": "Where the build data of products goes when a project was resolved again", "statement": "Each enabled product has build data afterwards: it is taken over from the stored product of that name if this has some and need not be set up anew, otherwise it is new. Files are removed exactly for products that do not exist any more. What is known about generated files of a product that is set up anew is kept for deciding what to rebuild. No build data is lost.", "quantifier": "every list of products before and after, every set of changed ones", "why_tests_cant": "all combinations of new, removed, changed, enabled and disabled products", "anchors": ["src/lib/corelib/buildgraph/buildgraphloader.cpp: BuildGraphLoader::trackProjectChanges, rescueOldBuildData, onProductRemoved"]}
{"id": "C77", "title": "Generated files of products whose build data is kept", "statement": "After a project was resolved again, the generated files of products whose build data was kept have the file tags and properties that the new product gives them, and each of the rules that they were made with is found in the new product, so that no internal check fails.", "quantifier": "every product before and after, every generated file", "why_tests_cant": "all combinations of groups with filters, file taggers and rules", "anchors": ["src/lib/corelib/buildgraph/buildgraphloader.cpp: updateProductAndRulePointers, checkForPropertyChanges", "src/lib/corelib/buildgraph/buildgraph.cpp: provideFullFileTagsAndProperties, updateGeneratedArtifacts", "src/lib/corelib/language/language.cpp: artifactPropertyListsAreEqual, ruleListsAreEqual"]}
{"id": "C78", "title": "Results of probes", "statement": "Each time a project is resolved, each probe gets exactly the values that running its configure script at that time would give, be they taken from an earlier run, from another product of the same run or from running the script. If running probes is forced, this does not depend on anything that was stored.", "quantifier": "every sequence of runs with changing files, every set of probes in projects and products, every configure script as a program that uses imports and looks at files", "why_tests_cant": "all histories of a project: results are carried over any number of runs", "anchors": ["src/lib/corelib/loader/probesresolver.cpp: ProbesResolver::resolveProbe, findOldProjectProbe, findOldProductProbe, findCurrentProbe, probeMatches", "src/lib/corelib/language/language.cpp: Probe::needsReconfigure", "src/lib/corelib/language/scriptengine.cpp: ScriptEngine::importedFilesUsedInScript"]}
{"id": "C79", "title": "Probes are not run without need", "statement": "In one run the configure script of a probe is run at most once with the same property values, however many products have it, and never if the condition of the probe is false. When a project is resolved again, a probe that it had before with the same values is not run again, unless an imported file that its script used is newer or missing, or running probes is forced.", "quantifier": "every set of probes, every earlier state", "why_tests_cant": "all sets of probes in any order", "anchors": ["src/lib/corelib/loader/probesresolver.cpp: ProbesResolver::resolveProbe, probeMatches", "src/lib/corelib/loader/loaderutils.cpp: TopLevelProjectContext::findCurrentProbe, addNewlyResolvedProbe"]}
{"id": "C80", "title": "Evaluation of properties ends and gives their meaning", "statement": "Asking for a property of an item always ends. The value found is the one nearest along the item, its base items and then its parent, and what is returned is what its script gives when each property it refers to is replaced by its own value. A property whose references are well-founded is never reported to refer to itself, and one that does refer to itself always is.", "quantifier": "all sets of items with any inheritance and parents, all scripts, all names", "why_tests_cant": "The references of scripts form arbitrary graphs over items, groups and modules; tests have a few of them. That the recursion ends needs an argument over all of them.", "anchors": ["src/lib/corelib/language/evaluator.cpp: getEvalProperty, PropertyStackManager, ValueEvaluator::eval", "src/lib/corelib/language/evaluator.h: Evaluator"]}
{"id": "C81", "title": "The cache of the evaluator does not change values", "statement": "Whether and when the cache of the evaluator is switched on makes no difference for the values of properties, whatever other properties were evaluated before.", "quantifier": "all series of evaluations of properties, with the cache on or off for each of them", "why_tests_cant": "What is in the cache depends on everything that was evaluated before; a wrong entry shows up only in another property and only in some order of evaluation.", "anchors": ["src/lib/corelib/language/evaluator.cpp: getEvalProperty, Evaluator::evaluateProperty", "src/lib/corelib/language/evaluator.h: EvalCacheEnabler", "src/lib/corelib/language/scriptengine.cpp: ScriptEngine::checkForJsError"]}
{"id": "C82", "title": "After the merge of module properties no outdated values are used", "statement": "When the final values of module properties are merged, values that were evaluated before and that depend on changed properties are not used any more.", "quantifier": "all modules, dependencies between them, and sets of changed properties", "why_tests_cant": "Only properties that were evaluated by validation scripts and depend on a merged property of another module are affected; the number of such combinations is unbounded.", "anchors": ["src/lib/corelib/loader/modulepropertymerger.cpp: ModulePropertyMerger::doFinalMerge", "src/lib/corelib/language/evaluator.cpp: Evaluator::clearCache, Evaluator::clearCacheIfInvalidated", "src/lib/corelib/language/item.cpp: Item::setProperty"]}
{"id": "C83", "title": "Module properties of a group are those evaluated in the group", "statement": "For each group and each module property, the value used for the files of the group is the one that evaluating the property in the context of the group gives: also properties that depend directly or indirectly on those set in the group have their values from the group, and all others those of the product.", "quantifier": "all modules, scripts, groups of a product in any order, and sets of properties set in them", "why_tests_cant": "Only the properties recorded as dependent are evaluated again; a missing record leaves a wrong compiler flag for some files, for certain dependencies and orders of evaluation only.", "anchors": ["src/lib/corelib/loader/productresolver.cpp: propertiesToEvaluate, ProductResolverStage2::resolveAdditionalModuleProperties, ProductResolverStage2::createProductConfig, PropertiesEvaluator::evaluateProperties", "src/lib/corelib/loader/groupshandler.cpp: GroupsHandler::propagateModulesFromParent", "src/lib/corelib/language/evaluator.cpp: PropertyStackManager"]}
{"id": "C84", "title": "A product gets the modules that the module providers generate for it", "statement": "What a product is given by the module providers for a module is what running these providers for this product gives: with the provider file that its search paths lead to, its configuration of the provider and its toolchain. It depends neither on other products nor on the order in which products are resolved nor on earlier runs.", "quantifier": "all projects, search paths, provider files, configurations, orders of products and histories of runs", "why_tests_cant": "Results are shared between products and runs by a key; a wrong result appears only for two products that have the same key but different providers, in one of the orders.", "anchors": ["src/lib/corelib/loader/moduleproviderloader.cpp: ModuleProviderLoader::executeModuleProviders, executeModuleProvidersHelper, findOrCreateProviderInfo, findModuleProviderFile", "src/lib/corelib/language/moduleproviderinfo.h: ModuleProvidersCacheKey", "src/lib/corelib/buildgraph/buildgraphloader.cpp: BuildGraphLoader::trackProjectChanges"]}
{"id": "C85", "title": "A module provider runs once", "statement": "Within a run a module provider is run at most once for each configuration and toolchain (and module, if it is not eager), only if some product asks for it, and not at all if its result is stored.", "quantifier": "all projects, requests and stored results", "why_tests_cant": "That a provider is not run again can only be seen by counting runs over all orders in which products ask.", "anchors": ["src/lib/corelib/loader/moduleproviderloader.cpp: ModuleProviderLoader::findOrCreateProviderInfo", "src/lib/corelib/language/moduleproviderinfo.h: ModuleProvidersCache"]}
{"id": "C86", "title": "The search paths from module providers exist", "statement": "The search paths that a product is given by a module provider exist: output of providers is removed only if nothing stored refers to it, and a dry run leaves behind no output of its own and all other output.", "quantifier": "all histories of runs, dry or not, with any configurations", "why_tests_cant": "The output of one run is removed by another one with another configuration; only certain sequences of three runs show it.", "anchors": ["src/lib/corelib/language/language.cpp: TopLevelProject::cleanupModuleProviderOutput, TopLevelProject::makeModuleProvidersNonTransient", "src/lib/corelib/language/moduleproviderinfo.h: ModuleProviderInfo::outputDirPath", "src/lib/corelib/loader/moduleproviderloader.cpp: ModuleProviderLoader::evaluateModuleProvider"]}
{"id": "C87", "title": "Command lines mean what the help says", "statement": "The arguments behind a command are accepted exactly if each one is an option of this command in one of its spellings (with an argument where it takes one, at most once unless it counts), a group of short options with numbers, or an assignment of a property where the command resolves; the result has these options and assignments in order. Parsing always ends, and no option hides another.", "quantifier": "all commands, all lists of arguments of any length, all sets of accepted arguments", "why_tests_cant": "Options, groups, numbers and assignments can be mixed in any order and length; tests try a few lines per command.", "anchors": ["src/app/qbs/parser/parsercommand.cpp: Command::parse, Command::parseOption, Command::parsePropertyAssignment, Command::parseNext, supportedOptions", "src/app/qbs/parser/commandlineoption.cpp: shortRepresentation, longRepresentation, doParse"]}
{"id": "C88", "title": "Build configurations get the properties in front of and behind their names", "statement": "For the assignments on a command line, one build configuration is made for each name given, in order, or one called default if none is given. Its value for a property is the last one assigned behind its name and before the next one, else the last one assigned in front of all names; keys without a module mean those of the qbs module.", "quantifier": "all series of assignments", "why_tests_cant": "Any number of sections, repeated names and keys, qualified and unqualified spellings; tests have one or two configurations.", "anchors": ["src/app/qbs/parser/commandlineparser.cpp: CommandLineParserPrivate::setupBuildConfigurations, CommandLineParserPrivate::propertyName"]}
{"id": "C89", "title": "A line is for the command that it names", "statement": "If the first argument is the name of a command, the rest is for that command, else the whole line is for building; what follows two dashes after run is passed to the program unchanged. Only a switch for help or version where an option is expected shows help or version.", "quantifier": "all command lines", "why_tests_cant": "It depends on what the arguments of the started program are, which tests of the parser do not vary.", "anchors": ["src/app/qbs/parser/commandlineparser.cpp: CommandLineParserPrivate::doParse, CommandLineParserPrivate::commandFromString", "src/app/qbs/parser/parsercommand.cpp: RunCommand::parseNext"]}
{"id": "C90", "title": "What is reported about a command is about that command", "statement": "A command of a job is reported as successful exactly if its process wrote its output and exited with a code between 0 and maxExitCode (or its script ended without an exception), in time; and as failed with the reason that applies to it. What happened to other commands that ran before on the same job plays no role.", "quantifier": "all sequences of transformers given to a job, and all sequences of launcher, watchdog, script and cancel events", "why_tests_cant": "The objects that run commands live for the whole build and are reused for thousands of commands; a test runs a few commands with few of the orders of time-outs, start failures and cancels.", "anchors": ["src/lib/corelib/buildgraph/processcommandexecutor.cpp: ProcessCommandExecutor::sendProcessOutput, onProcessError, doCancel", "src/lib/corelib/tools/qbsprocess.cpp: QbsProcess", "src/lib/corelib/buildgraph/jscommandexecutor.cpp: JsCommandExecutorThreadObject::start, cancel"]}
{"id": "C91", "title": "Each command that is started ends, and is reported once", "statement": "A command that a job has started is reported as finished exactly once, as soon as its process has ended or could not be started, or its script has ended; and the result of each process that has run is reported to the user, as a success exactly if the command is one.", "quantifier": "all sequences of transformers given to a job, and all sequences of launcher, watchdog, script and cancel events", "why_tests_cant": "It is about all orders of asynchronous events; a command that never ends shows only as a build that hangs.", "anchors": ["src/lib/corelib/buildgraph/executorjob.cpp: ExecutorJob::onCommandFinished, setFinished", "src/lib/corelib/buildgraph/abstractcommandexecutor.cpp: AbstractCommandExecutor::start, startTimeout", "src/lib/corelib/buildgraph/processcommandexecutor.cpp: ProcessCommandExecutor::onProcessError", "src/lib/corelib/tools/qbsprocess.cpp: QbsProcess::cancel"]}
{"id": "C92", "title": "The commands of a transformer run in their order, up to the first failure", "statement": "Of the list of commands of a transformer each one starts only after the one before it has succeeded; with the first failure, or with the command that runs when the build is cancelled, the list ends, and no later command is started. The list counts as successful exactly if all of its commands succeeded and nothing was cancelled; otherwise its error is that of the failed command, or that it was cancelled.", "quantifier": "all lists of commands and all sequences of events", "why_tests_cant": "The property is over all lengths of lists and all points in time where a command may fail or the build be cancelled.", "anchors": ["src/lib/corelib/buildgraph/executorjob.cpp: ExecutorJob::run, runNextCommand, onCommandFinished, cancel"]}
{"id": "C93", "title": "Scripts for the build and run environment run once each, dependencies first", "statement": "For a product whose modules have scripts for setting up an environment, the environment of its commands is the one that results from running each of these scripts exactly once, on the result of those before, such that the scripts of all modules that a module depends on (also indirectly) have run before its own. Without scripts, the environment is that of the project.", "quantifier": "all acyclic sets of modules with any dependencies, and all effects of scripts", "why_tests_cant": "The order matters only for certain shapes of the dependencies; tests have chains of two modules.", "anchors": ["src/lib/corelib/buildgraph/environmentscriptrunner.cpp: EnvironmentScriptRunner::setupEnvironment, findModuleChildren", "src/lib/corelib/loader/productresolver.cpp: ProductResolver::resolveModule"]}
{"id": "C94", "title": "The environment of a command is that of the product plus its own entries", "statement": "A process command runs with the environment of its product, where each variable given in the list of the command as name=value has that value (the last one, if there are more), in front of the old value for the search paths of programs and libraries; no other variable is changed.", "quantifier": "all environments and all lists of entries", "why_tests_cant": "Values may contain anything, also equals signs, or nothing; tests set one variable.", "anchors": ["src/lib/corelib/buildgraph/rulecommands.cpp: ProcessCommand::getEnvironmentFromList", "src/lib/corelib/buildgraph/processcommandexecutor.cpp: mergeEnvironments"]}
{"id": "C95", "title": "A command runs the first program of its name in PATH", "statement": "The file that is run for a program given by a relative path is the first executable one in the directories of PATH, in their order, where a dot stands for the working directory of the command; this is independent of the commands that ran before.", "quantifier": "all search paths, all contents of directories, all sequences of commands", "why_tests_cant": "The lookup is cached per product; which commands run before depends on the build.", "anchors": ["src/lib/corelib/tools/executablefinder.cpp: ExecutableFinder::findInPath, candidateCheck", "src/lib/corelib/language/language.cpp: ResolvedProduct::cachedExecutablePath, cacheExecutablePath"]}
{"id": "C96", "title": "A tool gets the same arguments with and without a response file", "statement": "If a command line is longer than the threshold of the command, and only then, arguments are passed in a file; a tool that expands response files sees the same arguments as with the full command line, also if response files were among the arguments.", "quantifier": "all lists of arguments, all contents of response files, all positions and separators", "why_tests_cant": "Response files are used just for very long command lines, and what is in the arguments is arbitrary.", "anchors": ["src/lib/corelib/buildgraph/processcommandexecutor.cpp: ProcessCommandExecutor::doStart", "src/lib/corelib/tools/shellutils.cpp: shellQuote"]}
{"id": "C97", "title": "A dependency parameter has the value of the nearest place that sets it", "statement": "For a module that a product gets through several dependencies, each parameter has the value given at the place nearest to the product, where places in disabled products do not count; if places of the same distance give different values and no nearer one gives a value, this is an error that names the places, and there is no error otherwise. Parameters that no place sets have their defaults.", "quantifier": "all sets of places in any order, all nestings of parameters, all values", "why_tests_cant": "Conflicts depend on the order and distance of an arbitrary number of places; tests have two or three.", "anchors": ["src/lib/corelib/loader/loaderutils.cpp: DependencyParametersMerger::merge, mergeParameters", "src/lib/corelib/loader/productresolver.cpp: ProductResolverStage1::mergeDependencyParameters", "src/lib/corelib/loader/dependenciesresolver.cpp: extractParameters"]}
{"id": "C98", "title": "The canonical list of toolchains is complete, ordered and stable", "statement": "The canonical list for a list of toolchain names contains exactly the names, in lower case, and all toolchains whose families they belong to, once each; names without a family come first, in their order, then the others in a fixed order that puts a toolchain before its family. The canonical list of a canonical list is the same, so that the value qbs sets up is accepted by the validation of qbs.toolchain. For single names, it is the documented list.", "quantifier": "all lists of names, in any order and spelling", "why_tests_cant": "The lists are arbitrary and may be mixed with names qbs does not know; tests have a few.", "anchors": ["src/lib/corelib/tools/toolchains.cpp: canonicalToolchain", "src/lib/corelib/jsextensions/utilitiesextension.cpp: UtilitiesExtension::js_canonicalToolchain", "share/qbs/modules/qbs/common.qbs: validate"]}
{"id": "C99", "title": "Each session request gets exactly one reply, of its type", "statement": "In a session with a client that waits for replies (and otherwise only cancels or quits), every request but cancel-job and quit gets exactly one reply, of the type documented for it. The reply to a request that starts a job comes when the job ends, and has an error if and only if the job failed; a job that cannot be started is refused with an error. Nothing is sent after quit. For any client, there are never more replies of a type than requests for it, and each request gets its reply.", "quantifier": "all sequences of requests and ends of jobs", "why_tests_cant": "The sequences are unbounded and interleave with jobs; tests have a few fixed conversations.", "anchors": ["src/app/qbs/session.cpp: Session::sendPacket, setupProject, buildProject, cleanProject, installProject, releaseProject, cancelCurrentJob, quitSession", "doc/appendix/json-api.qdoc"]}
{"id": "C100", "title": "A session reports exactly the file updates that failed", "statement": "When a client adds, removes or renames files in a group, the reply lists exactly the files for which this failed, has an error if and only if there are such, and carries new project data unless all failed. The project files then list what they listed before, changed exactly by the files that did not fail. The same holds for adding dependencies.", "quantifier": "all lists of files, all outcomes of the single updates, all contents of the project", "why_tests_cant": "Which of several files fail depends on the project files; tests have one failure at most.", "anchors": ["src/app/qbs/session.cpp: Session::addFiles, removeFiles, renameFiles, addDependencies, prepareFileUpdate"]}
{"id": "C101", "title": "A session job works on exactly the products named in the request", "statement": "A request to build, clean or install with a list of products works on exactly the products of the project, including its sub-projects, with these names; unknown names are ignored.", "quantifier": "all trees of projects, all lists of names", "why_tests_cant": "Projects nest arbitrarily and names may be unknown or repeated; tests have a few.", "anchors": ["src/app/qbs/session.cpp: Session::getProductSelection, getProductsByName, buildProject, cleanProject, installProject", "doc/appendix/json-api.qdoc"]}
{"id": "C102", "title": "With only-if-changed, the client's project data is always current", "statement": "If every request that resolves or builds asks for project data if it has changed, then whenever the session has a project, the last data sent to the client is the data of this project, with the module properties last asked for.", "quantifier": "all sequences of requests and ends of jobs, all changes of the data by jobs", "why_tests_cant": "Whether data is stale depends on the whole history of the session; tests compare single replies.", "anchors": ["src/app/qbs/session.cpp: Session::insertProjectDataIfNecessary, setupProject, buildProject", "src/lib/corelib/api/projectdata.cpp: operator=="]}
{"id": "C103", "title": "Adding and removing files changes the list of files as asked and nothing else in it", "statement": "Adding files to the list of files of a product or group keeps all listed files in their order and as they are written, and puts the new ones, sorted, among them; a single file becomes a list, and any other expression is concatenated to a list of the new files. Removing succeeds if and only if the list contains all the files, and leaves the others in their order. Removing what was added gives the list from before.", "quantifier": "all lists of files, all ways to write them, all file names", "why_tests_cant": "The lists, the names with special characters and the ways to write them are unbounded; tests have a few fixed project files.", "anchors": ["src/lib/corelib/api/projectfileupdater.cpp: ProjectFileFilesAdder::doApply, ProjectFileFilesRemover::doApply, addToFilesRepr, completeFilesRepr", "src/lib/corelib/api/qmljsrewriter.cpp: Rewriter::changeBinding, addBinding"]}
{"id": "C104", "title": "Changing a project file leaves the rest of it alone", "statement": "A successful change of the files of a product or group replaces the value of its binding in the project file, or inserts one, and leaves every other byte of the file as it was; line endings of new lines are those of the file. A failed change leaves the file as it was. Several changes of one project, each asked for with the project data at hand, change the groups they are meant for.", "quantifier": "all project files, all items in them, all line endings", "why_tests_cant": "The rest of the file is arbitrary text; tests compare a few files.", "anchors": ["src/lib/corelib/api/projectfileupdater.cpp: ProjectFileUpdater::apply, guessLineEndingType, convertToUnixLineEndings, convertFromUnixLineEndings, ItemFinder", "src/lib/corelib/api/project.cpp: ProjectPrivate::addFiles, removeFiles"]}
{"id": "C105", "title": "New groups and dependencies have the given name", "statement": "A group or a dependency added to a product has exactly the name that was given.", "quantifier": "all names", "why_tests_cant": "Names are arbitrary strings; tests have plain ones.", "anchors": ["src/lib/corelib/api/projectfileupdater.cpp: ProjectFileGroupInserter::doApply, ProjectFileDependenciesAdder::doApply"]}
{"id": "C106", "title": "A property value on the command line takes effect on exactly the property it names", "statement": "A value given for a property on the command line becomes the value of this property of the named project, product or module, converted to its declared type, whatever the project files say; a value for a module in one product wins over one for qbs, and that over one for the module in all products. Properties that are not named, and not declared ones, keep their values. The prefix project is for the top-level project.", "quantifier": "all sets of values, all projects, products, modules and declared properties", "why_tests_cant": "The names and their combinations are unbounded, and names with dots make keys ambiguous; tests have plain names.", "anchors": ["src/lib/corelib/language/item.cpp: Item::overrideProperties", "src/lib/corelib/tools/setupprojectparameters.cpp: provideValuesTree, overriddenValuesTree", "src/lib/corelib/tools/scripttools.cpp: setConfigProperty", "src/lib/corelib/loader/productscollector.cpp: handleProject, prepareProduct", "src/lib/corelib/loader/moduleinstantiator.cpp: overrideProperties"]}
{"id": "C107", "title": "Wrong property values on the command line are reported, right ones are accepted", "statement": "A key that begins with no known word, that names a project or product that does not exist, or a property that is not declared is reported as such. A key for a declared property of an existing project, product or module is accepted.", "quantifier": "all keys, all projects, products, modules and declared properties", "why_tests_cant": "Keys are arbitrary strings; tests have a few wrong ones.", "anchors": ["src/lib/corelib/loader/projectresolver.cpp: checkOverriddenValues, collectNameFromOverride", "src/lib/corelib/loader/productscollector.cpp: checkProjectNamesInOverrides, checkProductNamesInOverrides", "src/lib/corelib/loader/loaderutils.cpp: productWithNameAndConstraint"]}
{"id": "C108", "title": "Setup parameters always give trees for their current values", "statement": "The trees of the configuration, the overridden values and the final configuration that are read from setup parameters are those of the values at that time, after any sequence of changes and reads. In the final configuration, overridden values win.", "quantifier": "all sequences of changes and reads, all values", "why_tests_cant": "The trees are cached; the sequences of changes are unbounded.", "anchors": ["src/lib/corelib/tools/setupprojectparameters.cpp: setOverriddenValues, setTopLevelProfile, setConfigurationName, expandBuildConfiguration, buildConfigurationTree, overriddenValuesTree, finalBuildConfigurationTree"]}
{"id": "C109", "title": "Architectures have one canonical name", "statement": "Every alias of an architecture, in small or capital letters, has the name of the architecture as its canonical name; the canonical name of a canonical name is itself; names of different architectures stay different; unknown names are kept. The name for a target that is made from an architecture, endianness, vendor, system and ABI is a name of the same architecture and tells the endianness where there are two.", "quantifier": "all texts as names", "why_tests_cant": "Names are arbitrary texts in any case; tests have the known ones.", "anchors": ["src/lib/corelib/tools/architectures.cpp: canonicalArchitecture, canonicalTargetArchitecture"]}
{"id": "C110", "title": "The installed MSVC compilers for a target are found", "statement": "Asked for the MSVC compilers for an architecture, the result has exactly the installed ones that run on the host and compile for this architecture, or for the host if none is given.", "quantifier": "all sets of installed compilers, hosts and targets", "why_tests_cant": "The installed compilers differ from machine to machine; tests only see those of the test machine.", "anchors": ["src/lib/corelib/jsextensions/utilitiesextension.cpp: js_installedMSVCs", "src/lib/corelib/tools/msvcinfo.cpp: getHostTargetArchPair, findSupportedArchitectures, MSVC::canonicalArchitecture"]}
{"id": "C111", "title": "The identifiers of a platform include all its families", "statement": "The list of identifiers of a platform begins with its name, has no duplicates, is finite for any name, and for each identifier in it, it ends with the list of that one. So a project for a family (unix, bsd, darwin, linux) applies to exactly the members of it.", "quantifier": "all names of platforms", "why_tests_cant": "Any text can be a platform name; the function calls itself.", "anchors": ["src/lib/corelib/tools/hostosinfo.h: HostOsInfo::canonicalOSIdentifiers"]}
{"id": "C112", "title": "Identifiers made from names are valid", "statement": "An RFC 1034 identifier made from a text has a dash for each character that is not allowed and all others as they are, and complies with RFC 1034. Making an identifier from an identifier changes nothing.", "quantifier": "all texts", "why_tests_cant": "Texts are unbounded.", "anchors": ["src/lib/corelib/tools/hostosinfo.h: HostOsInfo::rfc1034Identifier", "src/lib/corelib/jsextensions/utilitiesextension.cpp: js_rfc1034identifier"]}
{"id": "C113", "title": "A quoted string is the C literal for it", "statement": "What Utilities.cStringQuote gives for a string is a string literal of C and of C++ on one line that a compiler reads as this string; so no two strings have the same literal, and a string of printable characters is between the quotes as it is.", "quantifier": "all strings of UTF-16 code units, all tables of printable characters", "why_tests_cant": "Strings are unbounded and the escapes interact with what follows; tests quote a few paths.", "anchors": ["src/lib/corelib/jsextensions/utilitiesextension.cpp: escapedString, js_cStringQuote"]}
{"id": "C114", "title": "Combined sources include the sources", "statement": "A source file that is made to combine sources (cpp.combineCSources and the like) includes exactly these sources, in this order.", "quantifier": "all lists of file paths", "why_tests_cant": "Paths are arbitrary texts; tests have plain ones.", "anchors": ["share/qbs/imports/qbs/ModUtils/utils.js: mergeCFiles", "src/lib/corelib/jsextensions/utilitiesextension.cpp: js_cStringQuote"]}
{"id": "C115", "title": "Files in different directories have different object files", "statement": "The hash of Utilities.getHash has 16 hexadecimal digits and depends on all of its input, so that sources with the same name in different directories get different object files, and different sources in one directory do, too, unless the hash function has a collision.", "quantifier": "all strings, all hash functions", "why_tests_cant": "Directories are arbitrary texts, and tests cannot tell a collision of the hash function from an input that is not hashed.", "anchors": ["src/lib/corelib/jsextensions/utilitiesextension.cpp: js_getHash", "share/qbs/modules/cpp/cpp.js: assemblerOutputArtifacts, compilerOutputArtifacts"]}
{"id": "C116", "title": "Rules and commands see the values of properties", "statement": "The value of a property as seen in rules, commands and by other code after resolving is the value that the property has been evaluated to: the same numbers, texts, lists in the same order, and objects with the same properties. Values that were given to a script once are not changed by giving them to scripts again.", "quantifier": "all values of any nesting, all types of properties", "why_tests_cant": "Values are unbounded trees; tests have texts, lists and small integers.", "anchors": ["src/lib/corelib/tools/scripttools.cpp: getJsVariantImpl", "src/lib/corelib/language/scriptengine.cpp: ScriptEngine::asJsValue", "src/lib/corelib/loader/productresolver.cpp: PropertiesEvaluator::evaluateProperty", "src/lib/corelib/jsextensions/moduleproperties.cpp"]}
{"id": "C117", "title": "Values have the type of their property", "statement": "After evaluation the value of a property is undefined or has the declared type; a value that has the type already is kept, except that paths are made absolute by the directory of the file or the product; a single value for a list property is a list of one; a list with an element that is not a text is an error that tells the first such element. Converting a second time changes nothing.", "quantifier": "all values, types and directories", "why_tests_cant": "There are arbitrarily long and nested values for each type.", "anchors": ["src/lib/corelib/language/evaluator.cpp: convertToPropertyType_impl, convertToPropertyType"]}
{"id": "C118", "title": "Only allowed values are accepted", "statement": "If a property has a list of allowed values, each text in its value that is not in the list is reported, in order, and nothing else is; undefined is always allowed.", "quantifier": "all types, lists of allowed values and values", "why_tests_cant": "Both lists are unbounded.", "anchors": ["src/lib/corelib/language/propertydeclaration.cpp: PropertyDeclaration::checkAllowedValues, shouldCheckAllowedValues"]}
{"id": "C119", "title": "A generated makefile runs the commands of the project", "statement": "For each command of a rule, make and the shell run the program with exactly the arguments that qbs would run it with, for all directories for which the generator does not report an error. Giving another value for a directory to make changes only files in this directory.", "quantifier": "all programs, arguments, and directories of the project, the build and the installation", "why_tests_cant": "There are two readers with their own rules about quoting, and the replacing of directories in between; tests run make on a few projects with harmless names.", "anchors": ["src/plugins/generator/makefilegenerator/makefilegenerator.cpp: quote, bruteForcePathReplace, MakefileGenerator::generate", "src/lib/corelib/tools/shellutils.cpp: shellQuote"]}
{"id": "C120", "title": "Each product has its own target in a generated makefile", "statement": "Different products have different targets, which also differ from the targets all, install and clean, and the line of a product is read by make as a rule for this target.", "quantifier": "all pairs of names of products and multiplex configuration ids", "why_tests_cant": "Names are arbitrary texts; tests have a few simple ones.", "anchors": ["src/plugins/generator/makefilegenerator/makefilegenerator.cpp: makeValidTargetName"]}
{"id": "C121", "title": "Rules of a generated makefile are about the files of the project", "statement": "make reads the line of a rule as the first output and the inputs of the rule, and different files have different names in the makefile.", "quantifier": "all paths of outputs and inputs, all directories", "why_tests_cant": "Paths are arbitrary, and many characters have a meaning to make.", "anchors": ["src/plugins/generator/makefilegenerator/makefilegenerator.cpp: makeValidTargetName, replacePrefix, MakefileGenerator::generate"]}
{"id": "C122", "title": "A generated makefile installs and removes the right files", "statement": "The lines for installing, removing and creating directories are run with exactly the files and directories of the project, so that cleaning does not remove any other file.", "quantifier": "all files, directories and install directories", "why_tests_cant": "Part of each path is quoted and part of it is not, which matters only for some characters in some places.", "anchors": ["src/plugins/generator/makefilegenerator/makefilegenerator.cpp: mkdirCmdLine, MakefileGenerator::generate"]}
{"id": "C123", "title": "At most one process has a build graph at a time", "statement": "Of all processes that load or store a build graph, at most one has it locked at any time, whenever processes are started, end normally or crash; the build directory and the lock file exist as long as a process has the lock; an attempt to lock it meanwhile fails and changes no file.", "quantifier": "all sequences of starts, steps, cancellations and crashes of any number of processes, and of changes of other files, from any state of the file system", "why_tests_cant": "Races between processes depend on the order of single steps; tests run two processes with one order.", "anchors": ["src/lib/corelib/tools/buildgraphlocker.cpp: BuildGraphLocker::BuildGraphLocker, BuildGraphLocker::~BuildGraphLocker"]}
{"id": "C124", "title": "A build graph nobody has locked can be locked", "statement": "If no process has the lock, a process that wants it gets it, also if a lock file was left behind by a process that crashed.", "quantifier": "all states of the file system and of the other processes, on one or several hosts", "why_tests_cant": "Lock files left behind, reused process ids and other hosts are states that tests do not make.", "anchors": ["src/lib/corelib/tools/buildgraphlocker.cpp: BuildGraphLocker::BuildGraphLocker, tryCreateBuildDirectory, appNamesAreEqual"]}
{"id": "C125", "title": "Directories created for a build are removed if nothing is in them", "statement": "At the end exactly those directories are removed that did not exist before, and have nothing in them except such directories; if nothing was put in them, the file system is as before. A warning about an empty directory that could not be removed is about an empty directory.", "quantifier": "all file systems, paths of build directories, and changes during the build", "why_tests_cant": "File systems are unbounded trees; tests have one build directory.", "anchors": ["src/lib/corelib/tools/buildgraphlocker.cpp: DirectoryManager::rememberCreatedDirectories, DirectoryManager::removeEmptyCreatedDirectories"]}
{"id": "C126", "title": "The job limits of a product are those with the highest precedence", "statement": "The limit of a product for a job pool is set by the JobLimit items of the product, else of its project, else of the parents of the project from inside out, else of its modules. Among items of the same level the lowest number greater than zero counts; if there are only zeros, there is no limit. Items that are not active and modules that are not present do not matter. An active item without a pool or a number, or with a negative number, is an error.", "quantifier": "all lists of items in products, chains of projects, and modules; all job pools", "why_tests_cant": "Items of several levels meet, with any numbers in any order; tests have a few combinations.", "anchors": ["src/lib/corelib/loader/loaderutils.cpp: resolveJobLimit", "src/lib/corelib/loader/productresolver.cpp: ProductResolverStage2::resolveModules, ProductResolverStage2::resolveModule", "doc/reference/items/language/joblimit.qdoc"]}
{"id": "C127", "title": "The option for job limits is read as written", "statement": "--job-limits accepts exactly the lists of pools and limits separated by commas and colons, and sets the limits given, where a later limit for a pool replaces an earlier one. Numbers that cannot be limits are rejected.", "quantifier": "all arguments", "why_tests_cant": "Arguments are unbounded texts.", "anchors": ["src/app/qbs/parser/commandlineoption.cpp: JobLimitsOption::doParse"]}
{"id": "C128", "title": "Exported values are translated with the prefixes given", "statement": "In the values that a product exports for use outside of its project, every text that starts with a prefix of prefixMapping, at any depth, has it replaced by the replacement given for the most specific such prefix; texts that start with none are kept; entries of lists that refer to the product made for finding out what is exported are left out, and no other value refers to it.", "quantifier": "all mappings, and all values built from texts, lists and maps", "why_tests_cant": "Values are nested without bound, and prefixes of prefixes are rare in tests.", "anchors": ["src/lib/corelib/loader/productresolver.cpp: ExportsResolver::adaptExportedPropertyValues", "doc/reference/items/language/export.qdoc: prefixMapping"]}
{"id": "C129", "title": "Sub-projects of a project have different names", "statement": "After a project is resolved, the sub-projects of each project have different names. A name not used by an earlier sub-project is kept; others have underscores added. Renaming ends, and the result depends on the project files only.", "quantifier": "all trees of projects with any names", "why_tests_cant": "Names with underscores may collide with names that other projects got; tests have two projects of one name.", "anchors": ["src/lib/corelib/loader/projectresolver.cpp: makeSubProjectNamesUniqe"]}
{"id": "C130", "title": "The value of a property of an item that inherits", "statement": "If the type of an item is given by another file, a property, also one of a module, has the value written in the nearest file in which it is set. There, and in all its conditional values, base stands for the value the next such file up gives to it. Conditional values apply in the order of their Properties items, the one for otherwise last. Files that do not set the property have no influence on it.", "quantifier": "all chains of files of any length, with any members and Properties items, and all names of one or several parts for which no file sets only a beginning or a continuation", "why_tests_cant": "Tests inherit once or twice, with single properties; the layers of names with several parts and conditions combine without bound.", "anchors": ["src/lib/corelib/loader/itemreaderastvisitor.cpp: ItemReaderASTVisitor::visit, inheritItem", "src/lib/corelib/loader/astpropertiesitemhandler.cpp: PropertiesBlockConverter", "src/lib/corelib/language/value.cpp: JSSourceValue::addAlternative", "src/lib/corelib/language/item.cpp: Item::setupForBuiltinType"]}
{"id": "C131", "title": "No value written in a project file gets lost silently", "statement": "If a file sets a property twice, or sets both a property and a part of it, an error says so. Every other value in a file is there in the item, as its value, as a conditional value or as what base stands for.", "quantifier": "all chains of files with any members and Properties items, in any order", "why_tests_cant": "It depends on the order of members, on which tests are not systematic.", "anchors": ["src/lib/corelib/loader/itemreaderastvisitor.cpp: checkDuplicateBinding, targetItemForBinding, inheritItem", "src/lib/corelib/loader/astpropertiesitemhandler.cpp: PropertiesBlockConverter"]}
{"id": "C132", "title": "A read-only property cannot be set by items that inherit it", "statement": "If a file declares a property with the word readonly, setting it, or declaring it anew, conditionally or not, in an item that inherits from that file directly or indirectly is an error.", "quantifier": "all chains of files of any length", "why_tests_cant": "Tests set a read-only property in the next file only.", "anchors": ["src/lib/corelib/loader/itemreaderastvisitor.cpp: inheritItem"]}
{"id": "C133", "title": "Declarations and children of items that inherit", "statement": "The type of a property of an item is the one given by the declaration farthest up. The children of an item are those of all its files, those of the file farthest up first and each file's in the order they have there.", "quantifier": "all chains of files of any length", "why_tests_cant": "Order over chains of any length; tests look at one child at a time.", "anchors": ["src/lib/corelib/loader/itemreaderastvisitor.cpp: inheritItem", "src/lib/corelib/language/item.cpp: Item::setPropertyDeclaration"]}
{"id": "C134", "title": "Which libraries are given to the linker", "statement": "The linker gets the files of all libraries a product depends on, and of those that static and object libraries among them depend on in turn, unless cpp.link is false on the way, and the external libraries of the product and, if cpp.importPrivateLibraries is set, of the static and object libraries. It gets each of them once, and nothing else. What a shared library depends on is not linked, nor are the variants a product combines. The object files of an object library the product itself depends on are always among them.", "quantifier": "all acyclic graphs of products of any depth, with any kinds, files and parameters, in any order", "why_tests_cant": "Tests use small fixed graphs; whether a library is missed depends on the order of the traversal and on what was reached before.", "anchors": ["share/qbs/modules/cpp/gcc.js: collectLibraryDependencies"]}
{"id": "C135", "title": "The order of libraries for the linker", "statement": "A static library comes before all files of the libraries it depends on, and all files of products come before the external libraries, so that a linker that reads static libraries from left to right finds all symbols.", "quantifier": "all acyclic graphs of products of any depth, in which several products may share dependencies", "why_tests_cant": "Shared dependencies at different depths give unboundedly many orders; a linker of the kind that needs the order is not part of the tests.", "anchors": ["share/qbs/modules/cpp/gcc.js: collectLibraryDependencies"]}
{"id": "C136", "title": "Libraries linked as a whole", "statement": "The arguments of the linker ask for all of a library if and only if cpp.linkWholeArchive is set in the dependency on it, and the mode is switched back after the last one. A product that sets it in its own dependency on a static library gets all of the library.", "quantifier": "all acyclic graphs of products of any depth, with any parameters", "why_tests_cant": "Tests have one such library; neighbours with other settings and several dependencies on one library combine without bound.", "anchors": ["share/qbs/modules/cpp/gcc.js: collectLibraryDependencies, linkerFlags"]}
{"id": "C137", "title": "Libraries for linkers that are not like GCC's", "statement": "With MSVC and similar toolchains the linker gets the files of all libraries a product depends on, also of object libraries, and of those that static and object libraries among them depend on in turn, unless cpp.link is false on the way, and the external libraries, and nothing else. The files of products and external object files are given once, so that no symbol is defined twice, and variants a product combines are not linked as well. A library is linked as a whole if and only if the dependency on it says so, and a product that says so in its own dependency gets all of the library.", "quantifier": "all acyclic graphs of products of any depth, with any kinds, files, parameters and external libraries, in any order", "why_tests_cant": "Tests on such toolchains need Windows and use small fixed graphs; what is reached twice, and on which way first, varies without bound.", "anchors": ["share/qbs/modules/cpp/cpp.js: collectLibraryDependencies"]}
{"id": "C138", "title": "Shared libraries that are needed only indirectly", "statement": "Every shared library that a linked shared library needs, over any number of static, object or shared libraries, is given to the linker itself or its directory is among those the linker searches for what shared libraries need. Only directories of such libraries are, and not those of libraries that are linked.", "quantifier": "all acyclic graphs of products of any depth, with any kinds, files and parameters, in any order", "why_tests_cant": "The traversal stops at libraries reached before, so that it depends on the order whether something is missed; tests have two levels.", "anchors": ["share/qbs/modules/cpp/gcc.js: collectLibraryDependencies"]}
{"id": "C139", "title": "The progress bar tells how much is done", "statement": "With --show-progress, the terminal has at any time one line for the current task, with the percentage of the effort that is done and one hash sign for each two percent, and nothing left over from earlier. The percentage never falls and never exceeds 100; at the end the line is ended, once. If several projects are built at once, nothing is shown before all efforts are known, and then what all jobs together have done of the sum of all efforts.", "quantifier": "all tasks, all maxima, all sequences of values in any order, and any number of jobs whose reports are interleaved in any way", "why_tests_cant": "Tests do not look at the terminal; sequences of values and interleavings are unbounded.", "anchors": ["src/app/qbs/consoleprogressobserver.cpp: ConsoleProgressObserver", "src/app/qbs/commandlinefrontend.cpp: CommandLineFrontend::handleNewTaskStarted, handleTaskProgress"]}
{"id": "C140", "title": "Go to definition finds what an item refers to", "statement": "In an editor connected to the language server, going to the definition at a position leads to exactly the modules, products or files that the item at this position refers to, each once, without those whose text has changed since. A range has its first position but not its end. There is no answer only if no item is there or the text has changed. The answer does not depend on the order of a hash table.", "quantifier": "all sequences of links found while resolving, all files and positions, all iteration orders and all states of open documents", "why_tests_cant": "Tests go to a few definitions in one project; the order of a hash table differs from run to run, and sets of links and positions are unbounded.", "anchors": ["src/app/qbs/lspserver.cpp: LspServer::Private::handleGotoDefViaCodeLinks", "src/lib/corelib/loader/loaderutils.cpp: TopLevelProjectContext::addCodeLink", "src/lib/corelib/tools/codelocation.cpp: CodePosition, CodeRange::contains"]}
