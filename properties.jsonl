{"id": "C01", "title": "Layered maps behave like one flat map", "statement": "Looking up a key in a map value built from any nesting of 'next' and 'content' maps returns the content's entry if the content has the key and the next map's entry otherwise; iterating the map yields exactly those entries, once each, in strictly increasing key order, so emptiness, size and equality never depend on how the map was layered.", "quantifier": "every tree of layered maps, every key", "why_tests_cant": "unit tests try a handful of two-layer maps; the merge of two sorted sequences has unboundedly many shapes", "anchors": ["src/buildtool/build_engine/expression/linked_map.hpp: LinkedMap::Find, empty, Items, ComputeSortedItems, operator=="]}
{"id": "C02", "title": "Conflicting duplicates are found exactly", "statement": "Asking two maps for a conflicting duplicate reports one exactly if some key is present in both with unequal values, and the reported key is such a key.", "quantifier": "all pairs of maps, all values", "why_tests_cant": "absence of a report must mean absence of any conflict for all maps", "anchors": ["src/buildtool/build_engine/expression/linked_map.hpp: FindConflictingDuplicate"]}
{"id": "C03", "title": "map_union is right-biased for every list of maps", "statement": "Evaluating map_union on a list of maps yields the map whose value at each key is the one from the last map of the list that has the key, independent of the divide-and-conquer split used.", "quantifier": "all lists of maps of any length", "why_tests_cant": "the recursion splits at the middle; tests use lists of two or three maps", "anchors": ["src/buildtool/build_engine/expression/evaluator.cpp: Union<false>, MapUnionExpr"]}
{"id": "C04", "title": "disjoint_map_union fails exactly on a real conflict", "statement": "Evaluating disjoint_map_union on a list of maps succeeds exactly if no two maps of the list disagree on a common key; on success the result has precisely the entries of all maps, and the verdict does not depend on the order of the list.", "quantifier": "all lists of maps of any length, all permutations", "why_tests_cant": "conflicts between far-apart list members are compared only after merging halves", "anchors": ["src/buildtool/build_engine/expression/evaluator.cpp: Union<true>, DisjointUnionExpr; linked_map.hpp: FindConflictingDuplicate"]}
{"id": "C05", "title": "Expression equality by hash is structural equality", "statement": "Two expression values compare equal (and get the same identifier) exactly if they are structurally equal values, unless an explicit collision of the hash function is exhibited by the comparison.", "quantifier": "all pairs of expression values of any size and nesting", "why_tests_cant": "requires unambiguity of the hash pre-image over all values", "anchors": ["src/buildtool/build_engine/expression/expression.cpp: ComputeHash, ToJson; expression_ptr.cpp: operator=="]}
{"id": "C06", "title": "Evaluation only depends on the variables the expression mentions", "statement": "Evaluating an expression under two configurations that agree (missing counting as null) on all variables occurring in the expression gives the same result or the same failure; in particular evaluating under the configuration pruned to those variables gives the same result.", "quantifier": "all expressions, all pairs of configurations", "why_tests_cant": "this is what makes analysis results shareable between configurations; no set of tests covers all expressions", "anchors": ["src/buildtool/build_engine/expression/evaluator.cpp: EvaluateExpression and the built-in functions; configuration.hpp: Prune, operator[]"]}
{"id": "C07", "title": "Pruning and updating configurations", "statement": "A configuration pruned to a list of variables answers exactly as the original for these variables, has precisely those variables fixed (to null if originally missing), and pruning is idempotent and composes by intersection; an updated configuration answers with the update's value where present and with the original's otherwise.", "quantifier": "all configurations, variable lists, updates", "why_tests_cant": "quantifies over all maps and variable lists", "anchors": ["src/buildtool/build_engine/expression/configuration.hpp: Prune, Update, operator[], VariableFixed"]}
{"id": "C08", "title": "nub_right and nub_left keep exactly one representative", "statement": "nub_right of a list is the subsequence consisting of the last occurrence of every distinct value, nub_left the subsequence of first occurrences; no value is lost, none duplicated and relative order is kept.", "quantifier": "all lists of values", "why_tests_cant": "order and multiplicity must be right for lists of every length", "anchors": ["src/buildtool/build_engine/expression/evaluator.cpp: NubRight, NubLeft"]}
{"id": "C09", "title": "enumerate followed by values is the identity", "statement": "For each list with at most 10^10 elements, the values of its enumeration, taken in key order, are the list itself, and the keys are the zero-padded positions.", "quantifier": "all lists of up to 10^10 elements", "why_tests_cant": "lexicographic order of decimal strings has to agree with numeric order for all indices", "anchors": ["src/buildtool/build_engine/expression/evaluator.cpp: Enumerate, Values, Keys"]}
{"id": "C10", "title": "join_cmd output is split back by a POSIX shell into the same words", "statement": "Reading the string returned by join_cmd with the quoting rules of a POSIX shell yields exactly the argument list, for arguments with arbitrary bytes.", "quantifier": "all lists of strings over all bytes", "why_tests_cant": "quoting bugs hide in combinations of quotes and adjacency", "anchors": ["src/buildtool/build_engine/expression/evaluator.cpp: ShellQuote, JoinCmdExpr, Join"]}
{"id": "C11", "title": "escape_chars is reversible", "statement": "For each string, set of characters and one-character escape prefix contained in the set, removing the escapes gives back the string, so different strings have different escaped forms.", "quantifier": "all strings and character sets", "why_tests_cant": "injectivity over all strings", "anchors": ["src/buildtool/build_engine/expression/evaluator.cpp: EscapeCharsExpr"]}
{"id": "C12", "title": "to_subdir moves every entry and detects each clash", "statement": "to_subdir either maps every entry of the given stage to the normalised path of its key below the subdirectory (or, if flat, of its base name), with its value, or fails; it fails exactly if two entries with unequal values (or values containing names) would land on the same path; nothing else appears in the result.", "quantifier": "all maps and target paths", "why_tests_cant": "clashes only show for particular pairs of paths", "anchors": ["src/buildtool/build_engine/expression/evaluator.cpp: ToSubdirExpr"]}
{"id": "C13", "title": "Quasi-quotation expands literal structure unchanged", "statement": "A quasi-quoted expression without escape markers evaluates to itself, whatever lists and maps it is made of.", "quantifier": "all literal expressions without escape markers", "why_tests_cant": "holds only if every nesting of lists and maps is handled", "anchors": ["src/buildtool/build_engine/expression/evaluator.cpp: ExpandQuasiQuote, ExpandQuasiQuoteListEntry"]}
{"id": "C14", "title": "Normalised paths", "statement": "ToNormalPath is idempotent, yields a path that resolves to the same place as its argument in every directory without symbolic links, contains no '.', no empty and no inner '..' components, and no trailing separator.", "quantifier": "all byte strings as paths", "why_tests_cant": "lexical normalisation has many interacting rules", "anchors": ["src/utils/cpp/path.hpp: ToNormalPath"]}
{"id": "C15", "title": "Non-upwards and confined paths never leave their directory", "statement": "If PathIsNonUpwards accepts a path, following it component by component from a directory never ends or lies above this directory; if PathIsConfined accepts a symlink target for a link at a given relative path, following it from the link's directory ends inside the root; both reject exactly the absolute paths and those that lexically end outside.", "quantifier": "all paths", "why_tests_cant": "safety against escaping the tree has to hold for adversarial symlink targets", "anchors": ["src/utils/cpp/path.hpp: PathIsNonUpwards, PathIsConfined"]}
{"id": "C16", "title": "Valid file names contain no separator and no NUL", "statement": "A name accepted by IsValidFileName is non-empty, neither '.' nor '..', and contains neither a slash nor a NUL byte.", "quantifier": "all byte strings", "why_tests_cant": "adversarial names in trees received from remote", "anchors": ["src/utils/cpp/path.hpp: IsValidFileName"]}
{"id": "C17", "title": "Hexadecimal codec", "statement": "Decoding the hexadecimal form of a byte string yields this byte string; the encoding is injective, of twice the length and consists only of lower-case hexadecimal digits; a string of even length that passes the hex check decodes to precisely the bytes it spells.", "quantifier": "all byte strings, all candidate hexadecimal strings", "why_tests_cant": "every byte and every malformed input", "anchors": ["src/utils/cpp/hex_string.hpp: ToHexString, FromHexString, IsHexString"]}
{"id": "C18", "title": "Relative module names cannot leave the workspace", "statement": "Resolving a relative target name with module path m/rel either stays within the workspace or is rejected; whatever is accepted is the module obtained by following the path, and all spellings of the same module get the same normal form.", "quantifier": "all current modules and relative paths", "why_tests_cant": "paths with many '..' components", "anchors": ["src/buildtool/build_engine/base_maps/entity_name.hpp: ParseEntityNameRelative; entity_name_data.hpp: normal_module_name"]}
{"id": "C19", "title": "Git tree serialisation is canonical", "statement": "The bytes created for a git tree depend only on the set of entries (name, type, id), not on their order or grouping, are sorted by git's directory rule, and two different sets of entries give different bytes; reading the bytes back by git's tree format gives exactly the entries.", "quantifier": "all sets of entries with valid names", "why_tests_cant": "canonicity is what makes tree hashes comparable for all trees", "anchors": ["src/buildtool/file_system/git_repo.cpp: CreateTree, CreateShallowTree, ObjectTypeToPerm"]}
{"id": "C20", "title": "Tree overlay has the promised content at every path", "statement": "The overlay of two trees contains at each path the object of the second tree if the second has one there (or a non-tree at a prefix), merged directories where both have directories, and the first tree's object otherwise, with types preserved; the disjoint variant fails exactly if both trees have different, not-both-directory objects at the same path.", "quantifier": "all pairs of trees of any depth", "why_tests_cant": "recursion over arbitrary directory structures", "anchors": ["src/buildtool/execution_engine/tree_operations/tree_operations_utils.cpp: CreateTreeOverlayMap, ParseGitTree, SerializeGitTree"]}
{"id": "C21", "title": "Tree structure abstracts exactly the file contents", "statement": "The structure of a tree has the same names and types at every path with all file contents replaced by the empty blob, and two trees get the same structure exactly if they agree on names and types.", "quantifier": "all trees of any depth", "why_tests_cant": "recursion over arbitrary trees and shared subtrees through the cache", "anchors": ["src/buildtool/tree_structure/tree_structure_utils.cpp: Compute"]}
{"id": "C22", "title": "Chunking a file loses nothing", "statement": "Concatenating the chunks the file chunker delivers gives the file back; no chunk is empty, every chunk except the last has at least the minimal size, none exceeds the maximal size, and the result does not depend on how the input is read into the internal buffer.", "quantifier": "all files of any size", "why_tests_cant": "boundaries depend on the data through a rolling hash; buffer refills happen at data-dependent positions", "anchors": ["src/buildtool/storage/file_chunker.cpp: NextChunk, NextChunkBoundary"]}
{"id": "C23", "title": "Chunks are stable", "statement": "Chunking a chunk again delivers exactly this chunk, so split parts are never split again; and files with a common suffix after a common chunk boundary share all chunks from there on.", "quantifier": "all files of any size", "why_tests_cant": "content-defined chunking over all contents", "anchors": ["src/buildtool/storage/file_chunker.cpp: NextChunkBoundary"]}
{"id": "C24", "title": "Splitting and splicing a large object are inverse", "statement": "After a large object has been split successfully, splicing its recorded parts yields its bytes, and a splice result is accepted only if its digest is the requested one.", "quantifier": "all blobs, all storage contents", "why_tests_cant": "must hold whatever other blobs are present", "anchors": ["src/buildtool/storage/large_object_cas.tpp: Split, Splice, TrySplice; local_cas.tpp: Splice"]}
{"id": "C25", "title": "Stored objects are immutable and content-addressed", "statement": "In each state reachable by any sequence of store, read, split, splice, uplink, garbage-collection and compactification operations, including a crash between any two file-system steps, the bytes found under a digest hash to this digest.", "quantifier": "all operation histories with a crash at any point", "why_tests_cant": "histories and crash points are unbounded", "anchors": ["src/buildtool/storage/local_cas.hpp, local_cas.tpp; file_system/object_cas.hpp; file_system/file_storage.hpp"]}
{"id": "C26", "title": "A read makes an object survive the next garbage collection", "statement": "After an object has been stored or successfully looked up, it can still be looked up after any later operations that contain fewer garbage collections than there are generations, including everything a tree looked up refers to.", "quantifier": "all histories of operations", "why_tests_cant": "needs the closure invariant over all trees and generations", "anchors": ["src/buildtool/storage/local_cas.tpp: LocalUplinkBlob, LocalUplinkGitTree; uplinker.cpp; garbage_collector.cpp: TriggerGarbageCollection"]}
{"id": "C27", "title": "Unused objects are eventually removed", "statement": "An object that is not stored or looked up (directly or through something referring to it) between as many garbage collections as there are generations is gone.", "quantifier": "all histories", "why_tests_cant": "space reclamation over all histories", "anchors": ["src/buildtool/storage/garbage_collector.cpp: TriggerGarbageCollection"]}
{"id": "C28", "title": "Trees in a generation are closed", "statement": "Whenever a git tree is present in the newest generation through the storage operations, everything it refers to is present in the newest generation too; a tree is only put into storage by the checked interface if all its entries are there.", "quantifier": "all histories of operations, crash at any point", "why_tests_cant": "recursion over trees; order of uplinks matters under crashes", "anchors": ["src/buildtool/storage/local_cas.tpp: LocalUplinkGitTree, CheckTreeInvariant"]}
{"id": "C29", "title": "Compactification keeps every object readable", "statement": "Compactification of a generation leaves every digest readable that was readable before, with the same bytes, for both executable and non-executable requests.", "quantifier": "all storage contents, all thresholds", "why_tests_cant": "removing spliced or large files must never remove the only copy", "anchors": ["src/buildtool/storage/compactifier.cpp: RemoveSpliced, SplitLarge, RemoveInvalid; garbage_collector.cpp: Compactify"]}
{"id": "C30", "title": "A cached action result is complete", "statement": "If the action cache returns a result, all artifacts it refers to can be read from storage, and continue to be readable for the guaranteed number of garbage collections.", "quantifier": "all histories", "why_tests_cant": "spans action cache, CAS and garbage collection", "anchors": ["src/buildtool/storage/local_ac.tpp: StoreResult, CachedResult, LocalUplinkEntry"]}
{"id": "C31", "title": "Each map value is computed at most once", "statement": "For each key, the value creator of an asynchronous map is started at most once, whatever number of threads request the key concurrently, and all requests for the key see the same value.", "quantifier": "all interleavings, any number of threads and keys", "why_tests_cant": "races need specific schedules", "anchors": ["src/buildtool/multithreading/async_map_consumer.hpp, async_map_node.hpp, async_map.hpp"]}
{"id": "C32", "title": "Consumers run exactly once and only when all keys are ready", "statement": "A consumer registered for a list of keys is run exactly once, after all values are set, with the values in the order of the keys; or its failure handler is run exactly once, if some of the keys fail, but never both; no registered waiter is forgotten at quiescence unless the keys are on a dependency cycle or depend on one.", "quantifier": "all interleavings, key lists with duplicates", "why_tests_cant": "lost wake-ups only happen under rare schedules", "anchors": ["src/buildtool/multithreading/async_map_consumer.hpp: QueueTaskWhenAllReady; async_map_node.hpp"]}
{"id": "C33", "title": "Cycle detection is exact", "statement": "After all work has finished, a cycle is reported exactly if the recorded dependencies of the map keys contain one, and the reported keys form a cycle.", "quantifier": "all dependency graphs", "why_tests_cant": "graphs of unbounded size", "anchors": ["src/buildtool/multithreading/async_map_consumer.hpp: DetectCycle, DetectCycleForCaller"]}
{"id": "C34", "title": "The task system runs every task exactly once and Finish waits for all", "statement": "Every queued task is taken by exactly one worker; Finish returns (without shutdown) only if all tasks queued before, and those transitively queued by them, have completed; as long as tasks are waiting some worker can proceed.", "quantifier": "all interleavings, any number of workers and tasks", "why_tests_cant": "schedules are unbounded", "anchors": ["src/buildtool/multithreading/task_system.cpp, notification_queue.hpp"]}
{"id": "C35", "title": "Build actions run at most once and only after their inputs", "statement": "During graph traversal every action is processed at most once, only when all its inputs are available, and only if some requested artifact depends on it.", "quantifier": "all graphs, requested sets and interleavings", "why_tests_cant": "races between visiting and notification", "anchors": ["src/buildtool/execution_engine/traverser/traverser.hpp; dag/dag.hpp, dag.cpp"]}
{"id": "C36", "title": "A successful traversal builds everything that was requested", "statement": "When the traversal of an acyclic graph has no work left and nothing failed, every requested artifact is available and every action it depends on was processed.", "quantifier": "all acyclic graphs, requested sets and interleavings", "why_tests_cant": "lost notifications only happen under rare schedules", "anchors": ["src/buildtool/execution_engine/traverser/traverser.hpp; dag/dag.hpp"]}
{"id": "C37", "title": "One builder per artifact", "statement": "Adding actions to the graph either fails or leaves a graph in which each artifact is produced by at most one action and inputs and outputs are linked in both directions.", "quantifier": "all sequences of additions", "why_tests_cant": "invariant over all sequences", "anchors": ["src/buildtool/execution_engine/dag/dag.cpp: AddAction, LinkNodePointers; dag.hpp: AddBuilderActionNode"]}
{"id": "C38", "title": "Repository minimisation identifies exactly the bisimilar repositories", "statement": "The minimiser maps two repositories to the same representative exactly if they have equal content and, recursively along all bindings, bound repositories are again equivalent, regardless of enumeration order.", "quantifier": "all finite complete automata, all enumeration orders", "why_tests_cant": "graphs with cycles of unbounded size", "anchors": ["src/utils/automata/dfa_minimizer.hpp: ComputeBisimulation, MarkPairValue"]}
{"id": "C39", "title": "Repository keys characterise repositories up to renaming", "statement": "Two content-fixed repositories get the same key exactly if they are bisimilar, unless a hash collision is exhibited.", "quantifier": "all repository graphs", "why_tests_cant": "canonical traversal order over all graphs", "anchors": ["src/buildtool/common/repository_config.cpp: DeduplicateRepo, AddToGraphAndGetId, BuildGraphForRepository"]}
{"id": "C40", "title": "Object identifiers survive printing and parsing", "statement": "Parsing the printed form [hash:size:type] of an object info returns this object info for each valid digest, and the JSON description of every artifact is parsed back to the same description.", "quantifier": "all digests, sizes and types; all artifact descriptions", "why_tests_cant": "all sizes and all strings", "anchors": ["src/buildtool/common/artifact.hpp: ObjectInfo::ToString, FromString; artifact_description.cpp"]}
{"id": "C41", "title": "Hex decoding accepts nothing but hexadecimal digits", "statement": "Decoding a string succeeds only if the string consists of an even number of hexadecimal digits.", "quantifier": "all strings", "why_tests_cant": "all malformed inputs: signs, spaces, prefixes, odd lengths", "anchors": ["src/utils/cpp/hex_string.hpp: FromHexString, IsHexString"]}
{"id": "C42", "title": "Evaluation of expressions terminates", "statement": "Evaluating an expression with the built-in functions always ends, with a value or an error, after a number of nested evaluations bounded by the nesting depth of the expression; the outcome does not depend on how much more depth would be allowed.", "quantifier": "all expressions and configurations", "why_tests_cant": "non-termination on some expression cannot be excluded by running examples", "anchors": ["src/buildtool/build_engine/expression/evaluator.cpp: Evaluator::Evaluate, EvaluateExpression"]}
{"id": "C43", "title": "JSON encoding is unambiguous", "statement": "json_encode maps different values made of null, booleans, finite numbers, strings, lists and maps to different strings; more generally, different JSON values have different texts (the basis of all identifiers computed from JSON texts).", "quantifier": "all values / pairs of values", "why_tests_cant": "injectivity over all values", "anchors": ["src/buildtool/build_engine/expression/evaluator.cpp: JsonEncodeExpr", "src/buildtool/build_engine/expression/expression.cpp: ToJson, ToString"]}
{"id": "C44", "title": "The digest of a tree determines all files below it", "statement": "Two directories with the same tree digest have objects of the same type and content id at every path, unless the hash function collides on two of the tree objects involved; and directories with the same objects at every path have the same digest.", "quantifier": "all pairs of directories of any depth", "why_tests_cant": "the claim ranges over all directory structures; a test compares a few", "anchors": ["src/buildtool/file_system/git_repo.cpp: CreateShallowTree, CreateTree", "src/buildtool/crypto/hash_function.cpp"]}
{"id": "C45", "title": "Repository keys are those of the current configuration", "statement": "Every key returned for a repository is the one of the configuration at the time of the request, whatever repositories were set and keys requested before.", "quantifier": "all histories of setting repositories and requesting keys", "why_tests_cant": "histories of unbounded length; the value cached for one repository depends on all repositories it is bound to", "anchors": ["src/buildtool/common/repository_config.hpp: SetInfo", "src/buildtool/common/repository_config.cpp: RepositoryKey, DeduplicateRepo", "src/buildtool/multithreading/atomic_value.hpp: SetOnceAndGet, Reset"]}
{"id": "C46", "title": "Action descriptions survive being written and read", "statement": "The JSON form of an action (command, outputs, inputs, environment, working directory, execution properties, failure message, caching flag, timeout) is read back as the same action; every action accepted from JSON is well formed and survives being written and read again.", "quantifier": "all action descriptions and all JSON values", "why_tests_cant": "all combinations of optional fields, all strings and numbers", "anchors": ["src/buildtool/common/action_description.hpp: ActionDescription::FromJson, ToJson", "src/buildtool/common/artifact_description.cpp: ArtifactDescription::FromJson, ToJson"]}
{"id": "C47", "title": "Target results survive being stored in the target cache", "statement": "Storing the result of a target (its artifacts, its runfiles and the values it provides, with lists, maps, artifacts, target results and nodes nested to any depth) and reading the stored entry back gives the same result, in which exactly those artifacts that were not yet known are replaced by the known objects they were built to.", "quantifier": "every triple of stage, provided value and runfiles, every map of replacements, both hash types", "why_tests_cant": "Provided values are arbitrary user-defined trees; sharing through hashes makes correctness a property of all pairs of sub-values, of which tests see a handful.", "anchors": ["src/buildtool/build_engine/expression/target_result.cpp: SerializeExpression, DeserializeExpression, TargetResult::ToJson, FromJson, ReplaceNonKnownAndToJson", "src/buildtool/storage/target_cache_entry.cpp: TargetCacheEntry::FromTarget, ToResult"]}
{"id": "C48", "title": "A target cache entry lists all artifacts its result refers to", "statement": "If both the result and the list of artifacts can be read from a target cache entry, whatever that entry contains, then every artifact of the result is a known object in that list. For entries made from a target (no two different values in it having the same hash) both can be read, the list has exactly the artifacts of the target, and the implied export targets are exactly those of the target, with the entry itself left out when asked for the others.", "quantifier": "every JSON description; every target result, replacement map and set of implied targets", "why_tests_cant": "Garbage collection and remote synchronisation keep exactly what is listed, so a single missing artifact at some depth makes a cached target unusable later; tests only list a few.", "anchors": ["src/buildtool/storage/target_cache_entry.cpp: ToArtifacts, ScanArtifactMap, ScanProvidesMap, ToObjectInfo, ToImplied, ToImpliedIds, FromTarget", "src/buildtool/build_engine/expression/target_result.cpp"]}
{"id": "C49", "title": "Equality of target nodes", "statement": "Two target nodes compare equal exactly if they are the same: value nodes if their values are, abstract nodes if node type, string fields and target fields are.", "quantifier": "all pairs of nodes", "why_tests_cant": "A comparison that is wrong for some field only shows on nodes that differ in just that way.", "anchors": ["src/buildtool/build_engine/expression/target_node.hpp: TargetNode::operator=="]}
{"id": "C50", "title": "The input root of an action is the directory its inputs describe", "statement": "From a list of input paths with known objects a tree is made exactly if every path stays inside the working directory and no input lies at or below another one. The tree is the Git tree object of the directory that has exactly the given objects at the given (normalised) paths and the directories leading there. It depends neither on the order of the inputs nor on the order in which hash maps are walked.", "quantifier": "all finite lists of inputs, all enumeration orders of the internal maps, every hash function", "why_tests_cant": "Conflicts depend on all pairs of paths and their normal forms, and the iteration order of hash maps is not under the control of a test.", "anchors": ["src/buildtool/execution_api/bazel_msg/directory_tree.cpp: DirectoryTree::AddArtifact, FromNamedArtifacts", "src/buildtool/execution_api/common/blob_tree.cpp: BlobTree::FromDirectoryTree"]}
{"id": "C51", "title": "Uploading a tree never leaves a tree without its content in the store", "statement": "While an input root is uploaded, at every moment, whatever subset of a batch has been stored so far, whatever the store answers about missing objects it may already have, and while others add to the store, everything named in a stored tree is stored. If a digest is returned it is that of the directory of the inputs, and it is stored with everything below. If all uploads succeed, a digest is returned.", "quantifier": "all lists of inputs whose objects are stored, all interleavings with other users, all answers of the store, all points in time", "why_tests_cant": "A crash or a concurrent reader between two uploads sees intermediate stores; only an invariant over all runs covers these.", "anchors": ["src/buildtool/execution_api/common/common_api.cpp: CommonUploadBlobTree, CommonUploadTreeNative, UpdateContainerAndUpload", "src/buildtool/execution_api/local/local_api.cpp: LocalApi::UploadTree", "src/utils/cpp/back_map.hpp: BackMap"]}
{"id": "C52", "title": "Batches of uploads fit into one message", "statement": "Every call for uploading made when uploading an input root or when transferring from Git is for at most one object, or for objects of at most 3 MiB in total.", "quantifier": "all inputs, all sizes of objects, all answers of store and source", "why_tests_cant": "The limit can only be exceeded by particular sequences of object sizes.", "anchors": ["src/buildtool/execution_api/common/common_api.cpp: UpdateContainerAndUpload", "src/buildtool/execution_api/common/message_limits.hpp: kMaxGrpcLength", "src/buildtool/execution_engine/executor/executor.hpp: VerifyOrUploadTree", "src/buildtool/execution_api/git/git_api.cpp: RetrieveToCas"]}
{"id": "C53", "title": "Transferring artifacts from a Git repository never leaves trees without content in the store", "statement": "While artifacts are transferred from a Git repository to the store of the executor, at every moment everything named in a stored tree is stored. If success is reported, the artifacts and all objects of the repository reachable from them are stored. If the repository has them completely and uploads succeed, success is reported.", "quantifier": "all repositories, trees of any depth, read failures, interleavings with other users and answers of the store", "why_tests_cant": "Depends on the order of uploads and on failures between any two of them.", "anchors": ["src/buildtool/execution_engine/executor/executor.hpp: VerifyOrUploadTree, VerifyOrUploadGitArtifact", "src/buildtool/execution_api/git/git_api.cpp: GitApi::RetrieveToCas"]}
{"id": "C54", "title": "Transferring artifacts from the local store to another one never leaves trees without content", "statement": "As C53, for the transfer of artifacts from the local store to the store of a remote executor.", "quantifier": "all stores, trees of any depth, read failures, interleavings with other users and answers of the store", "why_tests_cant": "Depends on failures while reading particular trees.", "anchors": ["src/buildtool/execution_api/local/local_api.cpp: LocalApi::RetrieveToCas", "src/buildtool/execution_api/common/tree_reader.hpp: ReadDirectTreeEntries"]}
{"id": "C55", "title": "The id of an action determines the action", "statement": "Two actions created for execution have the same id only if input root, command, working directory, environment, execution properties, timeout, caching flag and, up to order, the declared outputs agree, unless the hash function maps their two serialised Command messages, or their two serialised Action messages, to the same value. The order in which outputs are declared does not change the id.", "quantifier": "all pairs of actions with arbitrary strings as arguments, both hash types, every hash function", "why_tests_cant": "Injectivity of the serialisation quantifies over all pairs of requests; a single ambiguous encoding would let one action be served the result of another.", "anchors": ["src/buildtool/execution_api/bazel_msg/bazel_msg_factory.cpp: CreateActionDigestFromCommandLine", "src/buildtool/execution_api/local/local_action.hpp: LocalAction, CreateActionDigest", "src/buildtool/execution_api/local/local_api.cpp: LocalApi::CreateAction"]}
{"id": "C56", "title": "Cached results are results of the same action", "statement": "In every history of executions and removals of cache entries: a response given without running the command is allowed by the caching flag, names every declared output with the right kind, and names only what was found after an earlier run of the same action (or one whose id collides) that exited with zero, stored its result, and is the latest to do so. A response after running reports the exit code and names only what was found. Without caching nothing is looked up or stored; cache-only requests never run anything. A successful run whose result was stored is not repeated as long as its entry stays.", "quantifier": "all histories of executions with all caching flags, all effects of commands on the file system, all storage failures", "why_tests_cant": "Depends on the whole history of the cache and on arbitrary effects of commands.", "anchors": ["src/buildtool/execution_api/local/local_action.cpp: LocalAction::Execute, Run, CollectAndStoreOutputs", "src/buildtool/execution_api/local/local_response.hpp: LocalResponse", "src/buildtool/execution_api/utils/outputscheck.hpp: ActionResultContainsExpectedOutputs", "src/buildtool/execution_api/common/execution_action.hpp: CacheFlag"]}
{"id": "C57", "title": "Processing an action succeeds exactly on an acceptable answer and records what was answered", "statement": "Processing a command succeeds exactly if its inputs can be made a root, the root reaches the endpoint chosen by the first matching dispatch condition on the merged execution properties (those of the action win), and the answer to exactly the declared command has exit code zero (or failing is allowed), no upwards symlinks in compatible mode, and all declared outputs with fitting types. Then exactly the declared outputs are recorded, with digest and type as answered, marked as failed if an input was or the exit code is not zero; otherwise nothing is recorded. Tree actions record the tree of their inputs, overlays the overlay in the order of paths. The output paths sent are, seen from the working directory, the places of the declared ones.", "quantifier": "all actions, inputs, answers of the endpoints, dispatch lists and paths", "why_tests_cant": "Combines arbitrary answers of remote endpoints with arbitrary declarations.", "anchors": ["src/buildtool/execution_engine/executor/executor.hpp: ExecutorImpl::ExecuteAction, ExecuteTreeOverlayAction, ParseResponse, CheckOutputsExist, SaveObjectInfo, MergeProperties, GetAlternativeEndpoint, Executor::Process", "src/utils/cpp/path_rebase.hpp: RebasePathStringRelativeTo"]}
{"id": "C58", "title": "The result of a build does not depend on the schedule, and exactly what depends on a failed command is marked", "statement": "If endpoints answer equal requests equally, then in every interleaving of the traversal no action is processed before all its inputs are known, every provided artifact has the value obtained by evaluating the action graph, two builds agree on all artifacts both provide, and if one complete build of the targets succeeds so does every other, with the same results. An artifact is marked as failed exactly if a command it transitively depends on exited with a non-zero code.", "quantifier": "all action graphs, all interleavings of any number of workers, all targets, all answers", "why_tests_cant": "Schedules cannot be enumerated by tests; wrong results would show up only under particular interleavings.", "anchors": ["src/buildtool/execution_engine/executor/executor.hpp: Executor::Process, ParseResponse, ExecuteAction", "src/buildtool/execution_engine/traverser/traverser.hpp: Traverser", "src/buildtool/common/artifact.hpp: Artifact::SetObjectInfo"]}
{"id": "C59", "title": "Rebuilding reports exactly the outputs that differ", "statement": "If rebuilding an action succeeds, its outputs are those of the new run; if the cache endpoint has a result under the same action id, that result has all declared outputs and exactly the outputs whose digest or type differ are recorded as flaky; otherwise a cache miss is recorded.", "quantifier": "all actions, all answers of the two endpoints", "why_tests_cant": "Depends on all combinations of answers of two endpoints.", "anchors": ["src/buildtool/execution_engine/executor/executor.hpp: Rebuilder::Process, DetectFlakyAction, RecordFlakyAction"]}
{"id": "C60", "title": "The analysis result of a target depends only on the configuration variables it reports", "statement": "Analysing a target in a configuration has at most one result, and analysing it in any other configuration that has the same values for the reported variables gives the same result in all parts (artifacts, runfiles, providers, actions, blobs, trees, taints, implied exports). Hence targets that agree after restricting the configuration to the reported variables may share one result: whatever was analysed before, adding a result to the map of results returns an equal result.", "quantifier": "all targets of all kinds, all rules (defining expressions are arbitrary interactive programs that use the configuration only through the declared variables), all configurations, all dependency graphs, all histories of additions", "why_tests_cant": "Relates the results for infinitely many pairs of configurations; a variable forgotten in a single kind of rule would make builds share wrong results.", "anchors": ["src/buildtool/build_engine/target_map/target_map.cpp: withDependencies, withRuleDefinition, withTargetNode, CreateTargetMap", "src/buildtool/build_engine/target_map/built_in_rules.cpp: all rules", "src/buildtool/build_engine/target_map/result_map.hpp: ResultTargetMap::Add", "src/buildtool/build_engine/analysed_target/analysed_target.hpp: AnalysedTarget::Vars", "src/buildtool/build_engine/target_map/export.cpp: ExportRule"]}
{"id": "C61", "title": "Taints reach everything that depends on them, so exported results are reliable", "statement": "A target is tainted with everything any of its direct or indirect dependencies is tainted with. A target with an action that may fail or that must not be cached is tainted. Hence the result of an export target is untainted and nothing it depends on has such an action. Every export target eligible for caching that a result depends on is listed with it as implied.", "quantifier": "all targets, configurations and dependency graphs of any depth", "why_tests_cant": "Ranges over all dependency graphs and all kinds of rules; a single place that forgets the taints of some dependency lets results of failed actions be cached forever.", "anchors": ["src/buildtool/build_engine/target_map/target_map.cpp: withDependencies", "src/buildtool/build_engine/target_map/built_in_rules.cpp: all rules", "src/buildtool/build_engine/target_map/export.cpp: FinalizeExport, ExportRule", "src/buildtool/build_engine/target_map/absent_target_map.cpp: CreateAbsentTargetMap"]}
{"id": "C65", "title": "Export and configure targets have the result of the target they name, in the configuration they state", "statement": "An export target that is not served from a cache has exactly the result of the exported target in the configuration that has the values of the flexible variables, the fixed values, and nothing else; fixed variables are not flexible; the exported result is untainted and free of values that depend on the analysis. If served, result and implied targets are those of the entry for the restricted configuration. A configure target has exactly the result of its target in the configuration updated by the given map.", "quantifier": "all export and configure targets, all configurations, all contents of the target cache", "why_tests_cant": "Ranges over all configurations and exported targets.", "anchors": ["src/buildtool/build_engine/target_map/export.cpp: ExportRule, FinalizeExport", "src/buildtool/build_engine/target_map/built_in_rules.cpp: ConfigureRule"]}
{"id": "C66", "title": "The analysis does not run into undefined behaviour", "statement": "For every target and configuration the analysis ends with a result or a reported error, or runs forever, but never dereferences a null value.", "quantifier": "all target descriptions, rules, configurations", "why_tests_cant": "Ranges over all ill-formed target descriptions.", "anchors": ["src/buildtool/build_engine/target_map/built_in_rules.cpp: GenericRule, GenericRuleWithDeps", "src/buildtool/build_engine/target_map/target_map.cpp: TreeTarget"]}
{"id": "C62", "title": "Artifacts of targets and inputs of actions can be installed together, and none is lost", "statement": "In the artifacts and runfiles of every analysed target, in the inputs of every action and in every tree, all paths stay inside, no two entries are at the same place and none is below another. Whatever is given to RESULT, ACTION or TREE is kept entry by entry, up to the spelling of paths, or refused; it is refused only if there is a conflict. An empty directory is added to the inputs exactly if the working directory is not there.", "quantifier": "all targets, rules, configurations; all maps from paths to artifacts, for all spellings of paths", "why_tests_cant": "Ranges over all sets of paths; conflicts between the n-th and m-th entry via a common parent are easily missed, and a lost entry gives a wrong build without any error.", "anchors": ["src/buildtool/build_engine/target_map/utils.cpp: artifacts_tree, tree_conflict, add_dir_for", "src/buildtool/build_engine/target_map/target_map.cpp: withDependencies (RESULT, ACTION, TREE), ExprToTree", "src/buildtool/build_engine/target_map/built_in_rules.cpp: InstallRuleWithDeps, GenericRuleWithDeps, TreeRuleWithDeps, BlobGenRuleWithDeps"]}
{"id": "C63", "title": "Identifiers of actions, trees and overlays determine their content", "statement": "Two actions get the same identifier only if outputs, command, working directory, environment, permission to fail, caching, time-out scaling, properties and inputs are all the same; two trees only if they have the same entries; two overlays only if they have the same trees in the same order and both or none have to be disjoint; unless the hash function collides on strings that were hashed for the two.", "quantifier": "all actions, trees and overlays; hash functions with results of fixed length", "why_tests_cant": "Ranges over all pairs of actions; ambiguous concatenation of hashed parts would merge different actions of one build graph.", "anchors": ["src/buildtool/build_engine/target_map/utils.cpp: createAction, hash_vector", "src/buildtool/build_engine/analysed_target/analysed_target.hpp", "src/buildtool/common/tree.hpp: ComputeId", "src/buildtool/common/tree_overlay.hpp: ComputeId"]}
{"id": "C64", "title": "An action declared by a rule is the one that is described, with the outputs that are returned", "statement": "ACTION either fails or adds exactly one action; it has the command, working directory, environment, properties, time-out and inputs given, its output files and directories are the normal forms of the given paths, each once, sorted, with no path both a file and a directory. The map returned has exactly the given names, each standing for the output of its path. Failing and not caching are only possible for reasons among the taints of the rule.", "quantifier": "all arguments of ACTION, all rules", "why_tests_cant": "Ranges over all arguments; spelling of output paths varies without bound.", "anchors": ["src/buildtool/build_engine/target_map/target_map.cpp: withDependencies (ACTION)", "src/buildtool/build_engine/target_map/utils.cpp: createAction"]}
{"id": "C67", "title": "Everything an analysed target consists of can be built", "statement": "Every artifact in the artifacts, runfiles and provided values of an analysed target, every input of its actions, every entry of its trees and every part of its overlays, and the same for everything it depends on, is a source, known or cached artifact, or a blob recorded by the target or a dependency, or is obtained in finitely many steps as an output of a recorded action, a recorded tree or overlay from things that can be built in turn: no artifact dangles and none needs itself.", "quantifier": "all targets, rules and configurations; all dependency structures of any depth", "why_tests_cant": "Ranges over all targets and dependency histories; a tree or blob that is used but not recorded in one branch gives a build graph with an artifact nothing produces.", "anchors": ["src/buildtool/build_engine/target_map/target_map.cpp: withDependencies, withRuleDefinition", "src/buildtool/build_engine/target_map/built_in_rules.cpp: InstallRuleWithDeps, GenericRuleWithDeps, TreeRuleWithDeps, BlobGenRuleWithDeps", "src/buildtool/build_engine/target_map/export.cpp", "src/buildtool/build_engine/target_map/utils.cpp: add_dir_for, createAction"]}
{"id": "C68", "title": "What is handed over to the build is exactly what the analysed targets recorded", "statement": "For every identifier of an action, tree or overlay recorded by any analysed target, what is gathered for the build contains exactly one element with that identifier, and it contains nothing that was not recorded; every recorded blob is in it once. All lists are in strictly increasing order of identifiers, so that, as long as equal identifiers mean equal things, the result does not depend on the order in which the targets are visited or stored, or on how often a target was met.", "quantifier": "all sets of analysed targets, in all orders", "why_tests_cant": "Ranges over all sets of targets and all orders of the hash map they are stored in; a lost or duplicated action shows only for particular combinations of targets.", "anchors": ["src/buildtool/build_engine/target_map/result_map.hpp: ResultTargetMap::ToResult, ToActions"]}
{"id": "C69", "title": "Building analysed targets gives just what their actions, run on their inputs, give", "statement": "For artifacts of the results of analysed targets, the action graph set up from everything the targets recorded is accepted and contains those artifacts. Every schedule of building it ends, without getting stuck. It succeeds exactly if every artifact asked for comes out as something, where a source or stored object comes out as what the storage has for it and an output of a recorded action, tree or overlay as what running it alone on what its inputs come out as gives; and then the build reports exactly that for each of them. What an artifact comes out as is unique, and analysing further targets does not change it.", "quantifier": "all analysed targets of all worlds, all sets of artifacts asked for, all schedules, all endpoints", "why_tests_cant": "Ranges over all target graphs, all interleavings of actions and all answers of the execution endpoint; the end-to-end statement joins analysis, graph construction, traversal and execution.", "anchors": ["src/buildtool/build_engine/target_map/result_map.hpp: ResultTargetMap::ToResult", "src/buildtool/graph_traverser/graph_traverser.cpp: GraphTraverser::BuildArtifacts, AddArtifactsToRetrieve, GetArtifactNodes", "src/buildtool/execution_engine/dag/dag.cpp: DependencyGraph::Add", "src/buildtool/execution_engine/traverser/traverser.hpp: Traverser::Traverse", "src/buildtool/execution_engine/executor/executor.hpp: Executor::Process", "src/buildtool/common/tree.hpp: Tree::Action", "src/buildtool/common/tree_overlay.hpp: TreeOverlay::Action"]}
{"id": "C70", "title": "Completely resolving the symlinks of a root shows at every path what the links lead to", "statement": "If resolving all symlinks of a root (\"special\": \"resolve-completely\") succeeds, then at every path the resulting tree has a file with given content and executable bit exactly if following this path in the original tree, going on at the target of every symlink met, ends at such a file; the same for directories with a given list of names. The result has no symlinks and does not depend on the schedule. It succeeds only if every symlink of the tree leads, without leaving the tree, to a file or directory.", "quantifier": "all trees, all paths, all schedules of the resolution", "why_tests_cant": "Ranges over all trees and all nestings of links through links; which entry is looked at first, with which information, depends on the schedule.", "anchors": ["src/buildtool/file_system/symlinks/resolve_symlinks_map.cpp: CreateResolveSymlinksMap, ResolveKnownEntry", "src/buildtool/file_system/symlinks/resolve_symlinks_map.hpp: GitObjectToResolve, ResolvedGitObject", "src/buildtool/file_system/git_repo.cpp: GitRepo::GetObjectByPathFromTree", "src/utils/cpp/path.hpp: PathIsConfined, PathIsNonUpwards, ToNormalPath"]}
{"id": "C71", "title": "Trees whose symlinks can be resolved are resolved", "statement": "Whenever replacing every symlink of a root by what it leads to gives a finite tree, complete resolution succeeds and gives this tree.", "quantifier": "all trees", "why_tests_cant": "Ranges over all trees; whether the resolution runs into a dependency cycle depends on how links and directories are nested.", "anchors": ["src/buildtool/file_system/symlinks/resolve_symlinks_map.cpp: CreateResolveSymlinksMap, ResolveKnownEntry", "src/buildtool/file_system/git_repo.cpp: GitRepo::GetObjectByPathFromTree"]}
{"id": "C72", "title": "A completely resolved root shows what the operating system shows", "statement": "In a completely resolved root one sees at every path the file or directory that an operating system, resolving the symlinks component by component, shows at this path in the original tree.", "quantifier": "all trees, all paths", "why_tests_cant": "Ranges over all trees and all forms of link targets; normalising a target before following it is right for some targets only.", "anchors": ["src/buildtool/file_system/symlinks/resolve_symlinks_map.cpp: CreateResolveSymlinksMap, ResolveKnownEntry", "src/utils/cpp/path.hpp: PathIsConfined, PathIsNonUpwards, ToNormalPath"]}
{"id": "C73", "title": "Partially resolving symlinks leaves only links below their directory and keeps the meaning of paths", "statement": "If resolving the upwards symlinks of a root (\"special\": \"resolve-partially\") succeeds, every symlink left has a target that does not leave the directory the link is in, and following any path in the resulting tree ends at the same file content, or a directory with the same names, as in the original tree. It succeeds if all links stay in the tree.", "quantifier": "all trees, all paths, all schedules of the resolution", "why_tests_cant": "Ranges over all trees; a kept link that ends up in another directory shows only for particular combinations of links.", "anchors": ["src/buildtool/file_system/symlinks/resolve_symlinks_map.cpp: CreateResolveSymlinksMap, ResolveKnownEntry", "src/utils/cpp/path.hpp: PathIsConfined, PathIsNonUpwards, ToNormalPath"]}
{"id": "C74", "title": "Ignoring special entries removes the symlinks and nothing else", "statement": "Removing the symlinks of a root (\"special\": \"ignore\" with resolution) succeeds for every tree. At every path the result has exactly the file (content and executable bit) or directory that the tree has, and no symlink.", "quantifier": "all trees, all paths, all schedules", "why_tests_cant": "Ranges over all trees of any depth.", "anchors": ["src/buildtool/file_system/symlinks/resolve_symlinks_map.cpp: CreateResolveSymlinksMap, ResolveKnownEntry", "src/buildtool/file_system/git_repo.cpp: GitRepo::ReadTree"]}
{"id": "C75", "title": "A name written in a description refers to what the documentation says, however it is spelt", "statement": "A target name written in a description is accepted exactly if it is one of the documented forms, and then refers to the documented target: a string to a target of the same module; [module, name] to the same repository; [\"./\", dir, name] to the module reached from the current one, if that stays in the workspace; [\"@\", repo, module, name] to the repository bound to that name, and not at all if unbound; [\"FILE\"/\"TREE\"/\"GLOB\"/\"SYMLINK\", null or the module itself, name] to the file of the current module. All spellings of a module give the same name. It does not matter whether the name stood in a file or was computed by an expression. Different names are reported differently, names are totally ordered and compared for equality by all their parts.", "quantifier": "all strings as modules and names, all repository bindings, all values of expressions", "why_tests_cant": "Ranges over all spellings of paths and all current modules; which targets are identified as the same depends on every combination.", "anchors": ["src/buildtool/build_engine/base_maps/entity_name.hpp: ParseEntityName, ParseEntityNameFromJson, ParseEntityNameFromExpression, ParseEntityNameRelative, ParseEntityNameFSReference", "src/buildtool/build_engine/base_maps/entity_name_data.hpp: EntityName, NamedTarget, BuildMaps::Base::EntityName::ToJson, operator<, operator=="]}
{"id": "C76", "title": "A source file named by a target is the file at that path of the root, never one outside of it", "statement": "A name that is absolute or leads out of its module is never a source target. Otherwise the target exists exactly if the root shows a file or symlink at that place, and its artifact has this content and type: for Git roots by identifier, for file-system roots by path. A Git root and a file-system root with the same tree have the same source targets.", "quantifier": "all trees, all modules and names, all questions asked of the root before, any hash functions", "why_tests_cant": "Quantifies over all directory trees, spellings of paths and histories of cached lookups.", "anchors": ["src/buildtool/file_system/file_root.hpp: FileRoot::Exists, IsFile, IsSymlink, IsBlob, IsDirectory, ReadContent, ReadDirectory, BlobType, ToArtifactDescription, DirectoryEntries", "src/buildtool/file_system/git_tree.cpp: LookupEntryPyPath, GitTree::LookupEntryByPath, GitTreeEntry::Tree", "src/buildtool/build_engine/base_maps/source_map.cpp: CreateSourceTargetMap", "src/buildtool/build_engine/base_maps/directory_map.cpp: CreateDirectoryEntriesMap"]}
{"id": "C77", "title": "What a root answers does not depend on what it was asked before", "statement": "The answers of a root (what exists, is a file, a symlink, a directory, contents, listings, source targets, trees, globs) are those of the tree it shows; they do not depend on which questions were asked before, nor on what earlier builds left in the storage.", "quantifier": "all trees, all sequences of questions, all histories of the storage with killed checks and garbage collection", "why_tests_cant": "The cache of read trees is filled by whoever asks first; the number of orders is unbounded.", "anchors": ["src/buildtool/file_system/file_root.hpp: FileRoot::Exists, IsFile, IsSymlink, IsBlob, IsDirectory, ReadContent, ReadDirectory, BlobType, ToArtifactDescription, DirectoryEntries", "src/buildtool/file_system/git_tree.cpp: LookupEntryPyPath, GitTree::LookupEntryByPath, GitTreeEntry::Tree"]}
{"id": "C78", "title": "A tree is used only if everything below it is acceptable", "statement": "Whenever a tree of a Git root is accepted by the check, read by identifier, or listed, it contains at no depth a special entry or a symlink that leads out of its directory, even if validity markers remain from earlier runs that were killed, failed, or whose generations were collected. All acceptable trees are accepted.", "quantifier": "all trees, all histories of checks, crash points, failures to write a marker, and garbage collections", "why_tests_cant": "Markers are trusted across runs: one marker written too early in any interleaving makes an unacceptable tree accepted for ever.", "anchors": ["src/buildtool/file_system/git_tree_utils.cpp: ReadValidGitCASTree, IsGitTreeValid, ValidateGitSubtrees", "src/buildtool/file_system/file_root.hpp: FileRoot::Exists, IsFile, IsSymlink, IsBlob, IsDirectory, ReadContent, ReadDirectory, BlobType, ToArtifactDescription, DirectoryEntries"]}
{"id": "C79", "title": "A tree reference stands for the directory at that path of the root", "statement": "A TREE reference stands for exactly the directory the root shows at the path: the same names, and under each name the same content, whether it is given by its Git identifier or put together from its entries. If there is no directory the reference stands for the empty tree.", "quantifier": "all trees of any depth, all modules and names, all questions asked before", "why_tests_cant": "Quantifies over all directory trees and depths; the fast path by identifier and the slow path by entries have to agree.", "anchors": ["src/buildtool/build_engine/target_map/target_map.cpp: TreeTarget, GlobTargetWithDirEntry", "src/buildtool/file_system/file_root.hpp: FileRoot::Exists, IsFile, IsSymlink, IsBlob, IsDirectory, ReadContent, ReadDirectory, BlobType, ToArtifactDescription, DirectoryEntries", "src/buildtool/build_engine/base_maps/directory_map.cpp: CreateDirectoryEntriesMap"]}
{"id": "C80", "title": "A glob stands for exactly the matching files of its module", "statement": "A GLOB reference has exactly the names of the files and symlinks of the directory of the module that match the pattern, each standing for the content at that place; directories and files further down are never included.", "quantifier": "all trees, modules, patterns and matching functions, all questions asked before", "why_tests_cant": "Quantifies over all directories and patterns.", "anchors": ["src/buildtool/build_engine/target_map/target_map.cpp: TreeTarget, GlobTargetWithDirEntry", "src/buildtool/file_system/file_root.hpp: FileRoot::Exists, IsFile, IsSymlink, IsBlob, IsDirectory, ReadContent, ReadDirectory, BlobType, ToArtifactDescription, DirectoryEntries", "src/buildtool/build_engine/base_maps/directory_map.cpp: CreateDirectoryEntriesMap"]}
{"id": "C81", "title": "Names and digests mean the same on both ends of a connection", "statement": "The digest a server reads from a message, and the instance name, digest and upload identifier it reads from the name of a resource, are those the client put there; different resources have different names, and no name of a download is one of an upload.", "quantifier": "all digests of both hash types, all instance names that do not end in a slash and contain no key word between slashes, all upload identifiers", "why_tests_cant": "Quantifies over all instance names and digests; a single ambiguous spelling delivers the wrong object.", "anchors": ["src/buildtool/execution_api/common/bytestream_utils.cpp: ByteStreamUtils::ReadRequest, WriteRequest", "src/buildtool/common/bazel_digest_factory.cpp, artifact_digest_factory.cpp: ToBazel, FromBazel"]}
{"id": "C82", "title": "Objects sent in pieces arrive complete or not at all", "statement": "What the client takes for the content of a resource after a download is the content the server has, wherever the connection broke; an upload reported as successful means that the server accepted an object with the announced digest, which is the content sent. Without faults all uploads and downloads succeed, whatever the size.", "quantifier": "all contents, chunk sizes, points and ways of failure of the connection, answers to status queries, hash functions", "why_tests_cant": "Quantifies over all sizes relative to the chunk size and all points of interruption.", "anchors": ["src/buildtool/execution_api/remote/bazel/bytestream_client.hpp: ByteStreamClient::Read, Write, IncrementalReader", "src/buildtool/execution_api/execution_service/bytestream_server.cpp: BytestreamServiceImpl::Read, Write", "src/utils/cpp/incremental_reader.cpp: IncrementalReader"]}
{"id": "C83", "title": "Objects are considered available remotely only if the remote side confirmed it", "statement": "When the client asks which of some objects are missing remotely, every object asked for is either reported missing or is in the remote storage, however the request is cut into messages and whichever of them fail; nothing that was not asked for is reported. If all requests are answered, nothing that is there is reported missing.", "quantifier": "all sets of digests, limits on and sizes of messages, numbers of attempts, failures of requests, states of the remote storage that loses nothing meanwhile", "why_tests_cant": "Quantifies over all ways of cutting the request into messages and all failures.", "anchors": ["src/buildtool/execution_api/remote/bazel/bazel_cas_client.cpp: BazelCasClient::FindMissingBlobs, BatchUpdateBlobs, UpdateSingleBlob, BatchReadBlobs, ReadSingleBlob", "src/buildtool/common/remote/retry.cpp: WithRetry"]}
{"id": "C84", "title": "An upload reported as successful left all its objects in the remote storage", "statement": "If an upload of blobs to the remote storage reports success, every blob is there afterwards, for any sizes, failures, partial answers and repetitions; the upload ends; and an upload to a storage that takes everything succeeds.", "quantifier": "all sets of blobs (also of unreadable or changed files), limits on and sizes of messages, answers of a truthful storage", "why_tests_cant": "Quantifies over all partial answers and all ways of cutting the upload into messages.", "anchors": ["src/buildtool/execution_api/remote/bazel/bazel_cas_client.cpp: BazelCasClient::FindMissingBlobs, BatchUpdateBlobs, UpdateSingleBlob, BatchReadBlobs, ReadSingleBlob", "src/buildtool/execution_api/remote/bazel/bazel_network.cpp: BazelNetwork::UploadBlobs, DoUploadBlobs", "src/buildtool/common/remote/retry.cpp: WithRetry"]}
{"id": "C85", "title": "What is read from the remote storage has the digest asked for", "statement": "Whatever the remote side sends, the blobs a client gets when it reads are, in the order asked for, ones with the hash of their digest; objects that are there and are sent are all read.", "quantifier": "all lists of digests, all answers of the remote side, limits on and sizes of messages", "why_tests_cant": "Quantifies over all answers of a remote side, also wrong ones.", "anchors": ["src/buildtool/execution_api/remote/bazel/bazel_cas_client.cpp: BazelCasClient::FindMissingBlobs, BatchUpdateBlobs, UpdateSingleBlob, BatchReadBlobs, ReadSingleBlob", "src/buildtool/execution_api/remote/bazel/bazel_network_reader.cpp: BazelNetworkReader::ReadOrdered, Read, ReadSingleBlob, DumpBlob"]}
{"id": "C86", "title": "What a server confirmed is in its storage, end to end", "statement": "A server says that an object is not missing, or that it was stored, only if it is in its storage, with the content that has the hash and size announced. If a client was told that its upload succeeded, lookups in the storage of the server find each object, and everything below the trees among them, with the content that was sent unless hashes collide, until there were as many garbage collections as there are generations; whatever other users of the storage do meanwhile and wherever the connection breaks. Conversely, uploads of contents that have their digests, and of trees whose entries are there or come before, are accepted.", "quantifier": "all requests, contents, interleavings with other operations on the storage, crashes of servers, garbage collections, breaks of the connection, sizes of messages", "why_tests_cant": "Quantifies over all interleavings of the handling of requests with other operations on the storage, and over all failures of the connection.", "anchors": ["src/buildtool/execution_api/execution_service/cas_server.cpp: CASServiceImpl::FindMissingBlobs, BatchUpdateBlobs, BatchReadBlobs, SplitBlob, SpliceBlob", "src/buildtool/execution_api/execution_service/cas_utils.cpp: CASUtils::AddDataToCAS, AddFileToCAS, SplitBlobFastCDC, SpliceBlob", "src/buildtool/execution_api/execution_service/bytestream_server.cpp: BytestreamServiceImpl::Read, Write"]}
{"id": "C87", "title": "A server sends what was asked for", "statement": "What a server sends for a digest has this hash, in one message or in pieces, also when the client does not check; an object that was confirmed is found, not reported missing and sent, until there were as many garbage collections as there are generations; the chunks it was split into can be spliced to the same object; all artifacts of a cached result it sends are in its storage.", "quantifier": "all requests, histories of the storage, interleavings, offsets and sizes of pieces", "why_tests_cant": "Quantifies over all histories of the storage and interleavings.", "anchors": ["src/buildtool/execution_api/execution_service/cas_server.cpp: CASServiceImpl::FindMissingBlobs, BatchUpdateBlobs, BatchReadBlobs, SplitBlob, SpliceBlob", "src/buildtool/execution_api/execution_service/cas_utils.cpp: CASUtils::AddDataToCAS, AddFileToCAS, SplitBlobFastCDC, SpliceBlob", "src/buildtool/execution_api/execution_service/bytestream_server.cpp: BytestreamServiceImpl::Read, Write", "src/buildtool/execution_api/execution_service/ac_server.cpp: ActionCacheServiceImpl::GetActionResult"]}
{"id": "C88", "title": "A server knows the operations that run, and remembers finished ones within bounds", "statement": "For every sequence of executions, a server asked for an operation tells what was said last about it; only operations that are done can be forgotten, the oldest first, at most as many at once as the threshold says; the number remembered is bounded by twice the threshold or the number running at the same time, plus one. A client that waits gets the response of a finished execution of its action; and once all executions of it have ended it gets an answer.", "quantifier": "all sequences of beginning, finishing and failing executions, thresholds, orders of equal times, and times when the server looks", "why_tests_cant": "Quantifies over all sequences of requests and points of garbage collection; unit tests show a few.", "anchors": ["src/buildtool/execution_api/execution_service/operation_cache.hpp: OperationCache", "src/buildtool/execution_api/execution_service/operation_cache.cpp: OperationCache::GarbageCollection", "src/buildtool/execution_api/execution_service/execution_server.cpp: ExecutionServiceImpl::Execute, WriteResponse, WaitExecution", "src/buildtool/execution_api/execution_service/operations_server.cpp: OperationsServiceImpl::GetOperation"]}
{"id": "C89", "title": "Converting between native and compatible storage keeps files and directories", "statement": "The digest that an object of the native storage is converted to describes the same file, link or directory in the compatible storage, with the same names, types and contents at all depths, and conversely, whatever was converted before or is converted at the same time with the same cache of conversions, whatever fails and whenever garbage is collected; the answer keeps the type of the request. If nothing fails and the source is complete, there is an answer.", "quantifier": "all files, links and directories, all histories and interleavings of conversions sharing the cache, failures, garbage collections, orders of traversal", "why_tests_cant": "Quantifies over all interleavings and histories of conversions that share a persistent cache; tests convert one tree from an empty cache.", "anchors": ["src/buildtool/execution_api/utils/rehash_utils.cpp: RehashUtils::RehashDigest, RehashGitDigest, ReadRehashedDigest, StoreRehashedDigest", "src/buildtool/execution_api/bazel_msg/bazel_msg_factory.cpp: BazelMsgFactory::CreateDirectoryDigestFromGitTree, CreateGitTreeDigestFromDirectory"]}
{"id": "C90", "title": "What an object was converted to is in the target storage", "statement": "When a conversion reports success, the target storage has the converted object and everything below it.", "quantifier": "all directories, histories and interleavings of conversions, failures, garbage collections", "why_tests_cant": "Quantifies over histories with conversions and garbage collections in between; tests use one conversion and no collection.", "anchors": ["src/buildtool/execution_api/utils/rehash_utils.cpp: RehashUtils::RehashDigest, RehashGitDigest, ReadRehashedDigest, StoreRehashedDigest", "src/buildtool/execution_api/bazel_msg/bazel_msg_factory.cpp: BazelMsgFactory::CreateDirectoryDigestFromGitTree, CreateGitTreeDigestFromDirectory", "src/buildtool/storage/garbage_collector.cpp: GarbageCollector::TriggerGarbageCollection"]}
{"id": "C91", "title": "Conversions fail with an error, not with undefined behaviour", "statement": "Whatever the storages contain and whichever accesses fail, a conversion ends with digests or with an error message.", "quantifier": "all requests, contents of the source, failures and interleavings", "why_tests_cant": "Quantifies over all contents and failing accesses.", "anchors": ["src/buildtool/execution_api/utils/rehash_utils.cpp: RehashUtils::RehashDigest, RehashGitDigest, ReadRehashedDigest, StoreRehashedDigest", "src/buildtool/execution_api/bazel_msg/bazel_msg_factory.cpp: BazelMsgFactory::CreateDirectoryDigestFromGitTree, CreateGitTreeDigestFromDirectory"]}
{"id": "C92", "title": "The tree of a computed root contains exactly the artifacts of its target", "statement": "The git tree that a root computed from a cached export target refers to has, at the path of every artifact of the target, this artifact with its type, the directories leading there, and nothing else; artifacts from a compatible storage are replaced by what they are converted to. If an artifact is not known or not converted, no tree is reported.", "quantifier": "all maps from paths to artifacts, at any depth, all conversions of artifacts", "why_tests_cant": "The tree is built with a stack of partial directories while walking over the sorted paths; quantifies over all sets of paths, where the sorting of strings and of path components disagree.", "anchors": ["src/buildtool/computed_roots/artifacts_root.cpp: ArtifactsRoot, PartialTree::Down, Up, To, Add, Done"]}
{"id": "C93", "title": "An action runs in a directory with exactly its inputs", "statement": "The directory in which an action is run locally has exactly the content of the input tree: the same files with the same content and execute permission, the same links with the same targets, the same directories including empty ones. In addition it has the directories leading to the outputs, and nothing else. If all objects are in the storage and no file or link is in the way of an output directory, the directory is created.", "quantifier": "all input trees, all storages in native or compatible mode, all orders in which entries are traversed, all output paths and working directories, files being linked or copied when there are too many links", "why_tests_cant": "Quantifies over all trees and all storages; inputs are staged entry by entry and each entry could be at a wrong place or have wrong permissions.", "anchors": ["src/buildtool/execution_api/local/local_action.cpp: CreateDirectoryStructure, StageInputs, StageInput", "src/buildtool/execution_api/common/tree_reader.hpp: RecursivelyReadTreeLeafs", "src/buildtool/execution_api/local/local_cas_reader.cpp: ReadGitTree, ReadDirectory", "src/buildtool/execution_api/common/tree_reader_utils.cpp: ReadObjectInfos", "src/buildtool/file_system/file_system_manager.hpp: CreateDirectory, CreateSymlink, CreateFileHardlink"]}
{"id": "C94", "title": "Installing artifacts puts them at their paths and touches nothing else", "statement": "After artifacts have been installed, every file and link of every artifact is at its path, with content and permission; what was at other paths is unchanged, including old files in the directory of an installed tree. If installing fails, nothing at other paths has changed either. It succeeds if the objects are in the storage or in the git repository and no directory or file is in the way. The whole tree is installed, and nothing outside the destination is written.", "quantifier": "all lists of artifacts and paths that do not lie below each other, all storages and repositories, all initial contents of the directory", "why_tests_cant": "Quantifies over all directories that may be there before, all trees, and all points of failure.", "anchors": ["src/buildtool/execution_api/local/local_api.cpp: RetrieveToPaths", "src/buildtool/execution_api/git/git_api.cpp: RetrieveToPaths", "src/buildtool/execution_api/common/tree_reader.hpp: StageTo", "src/buildtool/execution_api/local/local_cas_reader.cpp: StageBlobTo", "src/buildtool/file_system/file_system_manager.hpp: CopyFileAs, WriteFileAs, CopySymlinkAs, RemoveFile"]}
{"id": "C95", "title": "Reading a directory into the storage gives its id and stores all of it", "statement": "If an output directory of an action, or a directory imported into a git repository, is read, the resulting digest is that of the tree with exactly the files, permissions, links and directories found, independently of the order in which the file system lists them. All objects of the tree have been stored then, and no others. A native output directory with a link pointing upwards is refused.", "quantifier": "all directories, all orders of traversal, all sets of objects the storage fails to take", "why_tests_cant": "Quantifies over all directories and all subsets of failing stores.", "anchors": ["src/buildtool/execution_api/bazel_msg/bazel_msg_factory.cpp: CreateGitTreeDigestFromLocalTree, CreateDirectoryDigestFromLocalTree", "src/buildtool/file_system/git_repo.cpp: CreateTreeFromDirectory", "src/buildtool/execution_api/local/local_action.cpp: CreateDigestFromLocalOwnedTree"]}
{"id": "C96", "title": "What an action leaves is what the next one gets", "statement": "An output directory of an action, used as input of another action, arrives there as it was: with the same files, permissions, links and directories. An input tree that is left as it is and collected as output has the id it had before. A tree that is installed into an empty directory and imported into a git repository has the same id as before.", "quantifier": "all directories, all orders of traversal, all other content of the storage", "why_tests_cant": "Writing and reading are separate code for each representation; the law quantifies over all directories.", "anchors": ["src/buildtool/execution_api/bazel_msg/bazel_msg_factory.cpp: CreateGitTreeDigestFromLocalTree, CreateDirectoryDigestFromLocalTree", "src/buildtool/execution_api/local/local_action.cpp: StageInputs", "src/buildtool/execution_api/local/local_api.cpp: RetrieveToPaths", "src/buildtool/file_system/git_repo.cpp: CreateTreeFromDirectory"]}
{"id": "C97", "title": "The root of an archive is what the pinned bytes contain", "statement": "When a repository given by an archive is set up, its root is the tree obtained by extracting bytes that have the pinned hash, taking the subdirectory and resolving links as requested, and this tree is in the Git cache. This holds whether the bytes came from the network, a distdir, the CAS, the remote CAS, a Git cache of any generation, or whether the tree was remembered from an earlier run. Two machines with the same description get the same root. Setting up never crashes.", "quantifier": "all descriptions and configurations, all histories of earlier runs, concurrent runs, crashes at every point and rotations of the cache, all answers of networks and remote services", "why_tests_cant": "Quantifies over all interleavings of runs, all crash points and everything the outside may deliver.", "anchors": ["src/other_tools/root_maps/content_git_map.cpp: CreateContentGitMap, HandleLocallyKnownTree, HandleKnownInOlderGeneration, ExtractAndImportToGit, ResolveContentTree, EnsureRootAsAbsent", "src/other_tools/ops_maps/content_cas_map.cpp: CreateContentCASMap, FetchFromNetwork", "src/buildtool/storage/fs_utils.cpp: GetArchiveTreeIDFile, GetResolvedTreeIDFile, WriteTreeIDFile"]}
{"id": "C98", "title": "The root of a git tree is the pinned tree, and it is available", "statement": "When a repository given by a git tree is set up, its root is the tree with the pinned id, and if it is a present root, this tree is in the Git cache.", "quantifier": "all descriptions and configurations, all histories, all results of the command generating the tree, all answers of remote services", "why_tests_cant": "Quantifies over everything that commands and services may deliver and over all histories.", "anchors": ["src/other_tools/ops_maps/git_tree_fetch_map.cpp: CreateGitTreeFetchMap, MoveCASTreeToGit, TakeTreeFromOlderGeneration", "src/other_tools/root_maps/tree_id_git_map.cpp: CreateTreeIdGitMap"]}
{"id": "C99", "title": "The root of a commit is the tree of the commit", "statement": "When a repository given by a commit is set up, its root is the subdirectory of the tree named in the commit object with the pinned id, whatever mirrors and services deliver; it is in the repository the root refers to.", "quantifier": "all descriptions and configurations, all histories, all answers of mirrors and remote services", "why_tests_cant": "Quantifies over everything that mirrors and services may deliver and over all histories.", "anchors": ["src/other_tools/root_maps/commit_git_map.cpp: EnsureCommit, NetworkFetchAndSetPresentRoot, TagAndSetRoot, TakeCommitFromOlderGeneration, WriteIdFileAndSetWSRoot"]}
{"id": "C100", "title": "What just-mr remembers is there, and enough to work offline", "statement": "Every association kept between a description and a tree, in every generation and at every moment, also after crashes, refers to a tree that is in the Git cache of that generation and that belongs to the description. The trees of roots that have been set up stay available during the run. A root whose archive, tree, commit or file is known locally is set up without contacting network, remote CAS or serve endpoint.", "quantifier": "all histories of concurrent and interrupted runs and rotations; for working offline, all states of the storage", "why_tests_cant": "Quantifies over all crash points between writing the tree and writing the association, all interleavings and rotations.", "anchors": ["src/other_tools/root_maps/content_git_map.cpp: WriteIdFileAndSetWSRoot, ExtractAndImportToGit", "src/other_tools/root_maps/commit_git_map.cpp: WriteIdFileAndSetWSRoot", "src/other_tools/root_maps/distdir_git_map.cpp: ImportFromCASAndSetRoot", "src/buildtool/storage/fs_utils.cpp: WriteTreeIDFile", "src/buildtool/storage/repository_garbage_collector.cpp: TriggerGarbageCollection"]}
{"id": "C101", "title": "Absent roots are not fetched and stay absent", "statement": "For a repository marked absent (and absent repositories not being fetched) no content is brought to this machine, neither from the network nor from mirrors, commands or the remote CAS, and the root that is set up is an absent one. All other roots are present.", "quantifier": "all descriptions and configurations, all histories, all answers of the services", "why_tests_cant": "Quantifies over all paths through the set-up and all histories of the cache.", "anchors": ["src/other_tools/root_maps/content_git_map.cpp: CreateContentGitMap, EnsureRootAsAbsent", "src/other_tools/root_maps/commit_git_map.cpp: EnsureCommit, TakeCommitFromOlderGeneration", "src/other_tools/root_maps/tree_id_git_map.cpp: CreateTreeIdGitMap", "src/other_tools/root_maps/distdir_git_map.cpp: CreateDistdirGitMap", "src/other_tools/root_maps/foreign_file_git_map.cpp: CreateForeignFileGitMap"]}
{"id": "C102", "title": "Conversions noted while fetching are right", "statement": "If, while fetching content, the correspondence between a native and a compatible digest is noted for later conversions, both are digests of the same bytes.", "quantifier": "all contents, descriptions and histories", "why_tests_cant": "Quantifies over all contents and over later runs that rely on what was noted.", "anchors": ["src/other_tools/ops_maps/content_cas_map.cpp: CreateContentCASMap", "src/buildtool/execution_api/utils/rehash_utils.cpp: StoreRehashedDigest"]}
{"id": "C103", "title": "Roots of distdirs and single files have exactly the files described", "statement": "The root of a distdir, or of a repository consisting of one fetched file, is a directory that has exactly the files named, each with the content having the pinned hash and the permission asked for. Its id is the same on every machine, whether the root is present or absent.", "quantifier": "all lists of files with valid names, all configurations and histories", "why_tests_cant": "Quantifies over all lists of files and over all pairs of histories; the id is computed by different code for absent roots.", "anchors": ["src/other_tools/root_maps/distdir_git_map.cpp: CreateDistdirGitMap, ImportFromCASAndSetRoot, LinkToCAS", "src/other_tools/root_maps/foreign_file_git_map.cpp: CreateForeignFileGitMap", "src/buildtool/file_system/git_repo.cpp: CreateShallowTree"]}
{"id": "C104", "title": "Incremental builds give what clean builds give", "statement": "If commands are deterministic (what they do depends on nothing but the action: command, environment, working directory, inputs), then every artifact a build finds is the one obtained by running the commands without any cache. This holds whatever was built before, by whomever, whatever was removed from the cache, whatever other builds do to the cache meanwhile, and if earlier builds were interrupted. Any two builds of the same targets both fail or both succeed, with the same results.", "quantifier": "all graphs, all sets of actions whose messages do not collide, all deterministic commands, all histories of the cache, all interference during the build, all schedules, all points in time", "why_tests_cant": "Quantifies over all histories of builds, interference of other processes and schedules.", "anchors": ["src/buildtool/execution_engine/executor/executor.hpp: ExecuteAction, CreateAction, Process", "src/buildtool/execution_api/local/local_action.cpp: LocalAction::Execute, LocalAction::Run, CreateActionDigest", "src/buildtool/execution_api/local/local_ac.tpp: StoreResult, CachedResult", "src/buildtool/execution_engine/traverser/traverser.hpp"]}
{"id": "C105", "title": "Results are backed by executions of exactly this action", "statement": "Even if commands are not deterministic: every artifact found by a build is a source, or was produced by an execution that really took place, of the very action (same command, environment, working directory, outputs, inputs) on inputs that are of this kind again.", "quantifier": "all graphs, all commands, all histories of the cache, all interference, all points in time of all builds", "why_tests_cant": "Quantifies over all histories and schedules; a wrong cache hit needs a specific pair of actions.", "anchors": ["src/buildtool/execution_engine/executor/executor.hpp: ExecuteAction, CreateAction, Process", "src/buildtool/execution_api/local/local_action.cpp: LocalAction::Execute, LocalAction::Run, CreateActionDigest", "src/buildtool/execution_api/local/local_ac.tpp: StoreResult, CachedResult", "src/buildtool/execution_engine/traverser/traverser.hpp"]}
{"id": "C106", "title": "Commands are not run again if nothing changed", "statement": "Once an action has been done in some build and its cache entry is not removed, no later build runs the command of the same action again, even if it occurs in another graph, or was cached by others meanwhile; exempted are actions not to be cached. In particular, after a successful build, a build of the same targets or some of them runs no command that may be cached.", "quantifier": "all graphs, all histories, all interference without removal of the entry, all schedules of both builds, all actions that exit with zero and whose outputs are plain", "why_tests_cant": "Quantifies over all pairs of builds and everything in between.", "anchors": ["src/buildtool/execution_engine/executor/executor.hpp: ExecuteAction, CreateAction, Process", "src/buildtool/execution_api/local/local_action.cpp: LocalAction::Execute, LocalAction::Run, CreateActionDigest", "src/buildtool/execution_api/local/local_ac.tpp: StoreResult, CachedResult", "src/buildtool/execution_engine/traverser/traverser.hpp"]}
{"id": "C107", "title": "Responses of the execution service are results of just this work", "statement": "Whatever requests the service got from whomever, in whatever interleaving, whatever was removed from the storage, and whoever else uses it: a response to an action is the result of an execution that took place, of the same command with the same environment in the same directory on the same inputs and for the same outputs; exit code and artifacts are those the local execution would have reported. Responses from the cache have exit code zero and all outputs. Actions marked as not to be cached never get into the cache.", "quantifier": "all histories of uploads, removals, local builds, requests and their steps; all actions with valid strings, all commands", "why_tests_cant": "Quantifies over all interleavings of requests of several clients on a shared storage, and all messages.", "anchors": ["src/buildtool/execution_api/execution_service/execution_server.cpp: ExecutionServiceImpl::Execute, ToIExecutionAction, ToBazelExecuteResponse, ToBazelActionResult, ToBazelAction, ToBazelCommand", "src/buildtool/execution_api/execution_service/ac_server.cpp: GetActionResult", "src/buildtool/execution_api/remote/bazel/bazel_action.cpp: BazelAction::Execute", "src/buildtool/execution_api/remote/bazel/bazel_response.cpp: Populate", "src/buildtool/execution_api/remote/bazel/bazel_ac_client.cpp", "src/buildtool/execution_api/local/local_action.cpp"]}
{"id": "C108", "title": "Remote builds give what local builds give", "statement": "If commands are deterministic, then each target of a successful remote build has the artifact that a local build without any cache gives, whatever the service did before and does meanwhile.", "quantifier": "all graphs, all schedules, all histories of the service before each of the actions, all deterministic commands", "why_tests_cant": "Quantifies over graphs, schedules and histories of the service.", "anchors": ["src/buildtool/execution_api/execution_service/execution_server.cpp: ExecutionServiceImpl::Execute, ToIExecutionAction, ToBazelExecuteResponse, ToBazelActionResult, ToBazelAction, ToBazelCommand", "src/buildtool/execution_api/execution_service/ac_server.cpp: GetActionResult", "src/buildtool/execution_api/remote/bazel/bazel_action.cpp: BazelAction::Execute", "src/buildtool/execution_api/remote/bazel/bazel_response.cpp: Populate", "src/buildtool/execution_api/remote/bazel/bazel_ac_client.cpp", "src/buildtool/execution_api/local/local_action.cpp", "src/buildtool/execution_engine/executor/executor.hpp: ExecuteAction"]}
{"id": "C109", "title": "Platform properties and timeouts reach the execution", "statement": "An action executed remotely is executed with the platform properties and the timeout it was given. (False: the service executes with no properties and the default timeout, so requests that differ only in these share executions on the server.)", "quantifier": "all actions and histories of the service", "why_tests_cant": "The properties are part of the messages, so that a test on messages or digests does not show that they are dropped at the server.", "anchors": ["src/buildtool/execution_api/execution_service/execution_server.cpp: ToIExecutionAction"]}
{"id": "C110", "title": "just-mr sets up exactly the repositories needed", "statement": "The configuration just-mr writes contains exactly the repositories reached from the main one via bindings and via the repositories that roots (of repositories and of their layers) are computed in; with --all it contains all of them. Whatever the configuration written refers to is in it.", "quantifier": "all multi-repository configurations, all options, all orders of enumeration of sets", "why_tests_cant": "Quantifies over all graphs of repositories.", "anchors": ["src/other_tools/just_mr/setup.cpp: MultiRepoSetup", "src/other_tools/just_mr/setup_utils.cpp: ReachableRepositories, GetTargetRepoIfPrecomputed", "src/other_tools/repo_map/repos_to_setup_map.cpp: CreateReposToSetupMap, SetReposTakeOver, PrecomputedRootCheckout", "src/other_tools/utils/parse_precomputed_root.cpp: ParsePrecomputedRoot", "src/other_tools/just_mr/utils.cpp: ResolveRepo"]}
{"id": "C111", "title": "The configuration written says what the configuration given says", "statement": "For each repository written, the workspace root is that of its description (directly, or that of the repository it names, and so on); target, rule and expression root are the workspace roots of the repositories named; bindings and file names are taken over unchanged; nothing else is written. (False for computed roots: just-mr writes the module of the target also as the name.) For setup-env, the main repository has no roots.", "quantifier": "all multi-repository configurations, all options", "why_tests_cant": "Quantifies over all configurations; the tests use targets with module and name both empty, so that they cannot tell the two apart.", "anchors": ["src/other_tools/just_mr/setup.cpp: MultiRepoSetup", "src/other_tools/just_mr/setup_utils.cpp: ReachableRepositories, GetTargetRepoIfPrecomputed", "src/other_tools/repo_map/repos_to_setup_map.cpp: CreateReposToSetupMap, SetReposTakeOver, PrecomputedRootCheckout", "src/other_tools/utils/parse_precomputed_root.cpp: ParsePrecomputedRoot", "src/other_tools/just_mr/utils.cpp: ResolveRepo"]}
{"id": "C112", "title": "just uses the roots that were described to just-mr", "statement": "Reading the configuration written by just-mr, just has the same main repository, and for each repository the root of its description, as other roots those of the repositories named (or the default), the names bound as written and to known repositories, and the files named (or the default). It accepts what setup writes. (False for main repositories that are directories with special files ignored, for layers that are the main repository in setup-env, and for unknown layers with --all.)", "quantifier": "all multi-repository configurations, all options of just-mr", "why_tests_cant": "Quantifies over all configurations and the composition of two programs.", "anchors": ["src/other_tools/just_mr/setup.cpp: MultiRepoSetup", "src/other_tools/just_mr/setup_utils.cpp: ReachableRepositories, GetTargetRepoIfPrecomputed", "src/other_tools/repo_map/repos_to_setup_map.cpp: CreateReposToSetupMap, SetReposTakeOver, PrecomputedRootCheckout", "src/other_tools/utils/parse_precomputed_root.cpp: ParsePrecomputedRoot", "src/other_tools/just_mr/utils.cpp: ResolveRepo", "src/buildtool/main/main.cpp: DetermineRoots", "src/buildtool/file_system/file_root.hpp: FileRoot::ParseRoot", "src/buildtool/file_system/precomputed_root.cpp: PrecomputedRoot::Parse"]}
{"id": "C113", "title": "just-mr comes to an end and reports circular descriptions", "statement": "just-mr setup ends for each configuration. A repository whose description is missing, or refers to itself by a chain of names, is reported if it is needed; it is never passed over. (False: with a chain of names that goes round in circles it never ends.)", "quantifier": "all multi-repository configurations", "why_tests_cant": "Termination on all inputs.", "anchors": ["src/other_tools/just_mr/setup.cpp: MultiRepoSetup", "src/other_tools/just_mr/setup_utils.cpp: ReachableRepositories, GetTargetRepoIfPrecomputed", "src/other_tools/repo_map/repos_to_setup_map.cpp: CreateReposToSetupMap, SetReposTakeOver, PrecomputedRootCheckout", "src/other_tools/utils/parse_precomputed_root.cpp: ParsePrecomputedRoot", "src/other_tools/just_mr/utils.cpp: ResolveRepo"]}
{"id": "C114", "title": "The list of absent repositories makes just those absent", "statement": "With a file of absent repositories, the repositories listed are absent and the others are not, whatever their descriptions said; nothing else is changed. (False for repositories described by the name of another one: these are as absent as the other one.)", "quantifier": "all configurations and lists", "why_tests_cant": "Quantifies over all configurations.", "anchors": ["src/other_tools/just_mr/setup_utils.cpp: ReadConfiguration"]}
{"id": "C115", "title": "Caches return what was stored under the key asked for", "statement": "An entry returned by the target cache, or a result returned by the action cache, is one that some process stored under exactly this key, byte by byte (unless the hash function collides). This holds for any number of processes and threads, with I/O errors, kills and garbage collections at any point.", "quantifier": "all interleavings of all operations on the storage, all I/O errors, crash points and garbage collections", "why_tests_cant": "Quantifies over all schedules and faults.", "anchors": ["src/buildtool/storage/target_cache.tpp: TargetCache::Store, Read, LocalUplinkEntry", "src/buildtool/storage/local_ac.tpp: LocalAC::StoreResult, CachedResult, LocalUplinkEntry", "src/buildtool/storage/local_cas.tpp", "src/buildtool/storage/garbage_collector.cpp"]}
{"id": "C116", "title": "Target cache entries are written after all they depend on", "statement": "When the export targets of a build are written to the target cache, an entry appears there only after all the artifacts it refers to are in the local storage and the entries of all export targets it implies are in the target cache; so a kill at any point leaves no dangling entry. An entry reported as written is found by later readers as long as no garbage collection ran.", "quantifier": "all sets of export targets, all schedules of the writer and of other processes, all crash points", "why_tests_cant": "Quantifies over all schedules and crash points.", "anchors": ["src/buildtool/main/build_utils.cpp: CreateTargetCacheWriterMap, WriteTargetCacheEntries", "src/buildtool/storage/target_cache.tpp: TargetCache::Store, Read"]}
{"id": "C117", "title": "Target cache keys tell export targets apart", "statement": "Two export targets with the same key have the same repository key, module, name and effective configuration (or the hash function collides). Hence, if everybody stores under a key only entries that are right for the target of this key, what is found under the key of a target is right for this very target.", "quantifier": "all repository keys, names (with any characters), configurations, histories of the storage", "why_tests_cant": "Quantifies over all strings and configurations, and histories.", "anchors": ["src/buildtool/storage/target_cache.tpp: TargetCache::ComputeKey", "src/buildtool/build_engine/expression/configuration.hpp: Configuration::ToString", "src/buildtool/build_engine/target_map/export.cpp"]}
{"id": "C118", "title": "add-to-cas prints the identifier of what was given and stores all of it", "statement": "When add-to-cas succeeds on a directory, what it prints is the git identifier of the directory as it is (by default), or of its files and subdirectories only (when special entries are ignored), and all objects of this tree are in the local CAS. By default it succeeds on every directory without special files and with links that do not lead out of their directory; ignoring special entries it succeeds on every directory. For a file, or a link, it prints the identifier of the content, and the content is in the CAS.", "quantifier": "all file systems, locations, prior states of the CAS, hash functions with 20-byte values", "why_tests_cant": "Quantifies over all directory trees.", "anchors": ["src/buildtool/main/add_to_cas.cpp: AddArtifactsToCas, CASTreeImporter", "src/buildtool/file_system/file_system_manager.hpp", "src/buildtool/file_system/object_cas.hpp: StoreBlobFromFile, StoreBlobFromBytes"]}
{"id": "C119", "title": "add-to-cas resolves links to what they lead to", "statement": "When links are to be resolved (upwards ones only, all in the tree, or all), what is printed is the identifier of the directory with these links replaced by what they lead to, all of it is in the CAS, and it succeeds whenever there is such a finite tree.", "quantifier": "all file systems with all kinds of links and cycles of links, all modes", "why_tests_cant": "Quantifies over all file systems and link structures.", "anchors": ["src/buildtool/main/add_to_cas.cpp: CASTreeImporter::CreateFromDirectory, ResolveSpecial"]}
{"id": "C120", "title": "Adding to the CAS leaves the files given alone", "statement": "Adding files or directories to the CAS does not change them, and what is in the CAS afterwards does not depend on what happens to the files later; a directory in order can be added wherever it is.", "quantifier": "all file systems, locations, states of the CAS, later modifications of the files", "why_tests_cant": "Quantifies over all file systems and later modifications.", "anchors": ["src/buildtool/main/add_to_cas.cpp", "src/buildtool/file_system/file_storage.hpp: AtomicAddFromFile", "src/buildtool/file_system/object_cas.hpp", "src/buildtool/file_system/file_system_manager.hpp: CreateFileHardlink"]}
{"id": "C121", "title": "install-cas finds the object at a path in a tree", "statement": "Given a tree in the CAS and a path, install-cas takes the object at that path of the tree; if there is no object at this path it fails.", "quantifier": "all trees and paths", "why_tests_cant": "Quantifies over all trees and paths.", "anchors": ["src/buildtool/execution_api/utils/subobject.cpp: RetrieveSubPathId", "src/buildtool/main/install_cas.cpp: FetchAndInstallArtifacts", "src/buildtool/execution_api/common/tree_reader_utils.cpp: ReadObjectInfos"]}
{"id": "C122", "title": "Certificate verification follows the most specific entry of the git configuration", "statement": "Whether just-mr verifies certificates when fetching from a URL is determined by the entry http.<url>.sslVerify that applies to the URL (scheme, host with asterisks for labels, port, path up to a slash, user) and is most specific, the last one of these; if there is none by http.sslVerify, and by default they are verified. Entries for other URLs do not matter.", "quantifier": "all configurations, URLs and parsers of URLs", "why_tests_cant": "Quantifies over all configurations and URLs.", "anchors": ["src/other_tools/git_operations/git_config_settings.cpp: GetSSLCallback", "src/other_tools/utils/curl_url_handle.cpp: MatchConfigKey, ParseConfigKey, HostsMatch, PathMatchSize"]}
{"id": "C123", "title": "Hosts in no_proxy, and only these, are exempt", "statement": "A URL is exempt from proxies if and only if no_proxy has an asterisk or a pattern that is its host or a domain it is in, without port or with the port given in the URL.", "quantifier": "all strings no_proxy, all hosts and ports", "why_tests_cant": "Quantifies over all strings.", "anchors": ["src/other_tools/utils/curl_url_handle.cpp: NoproxyStringMatches, ParseNoproxyPattern, NoproxyPatternMatches"]}
{"id": "C124", "title": "The proxy used is the one git would use", "statement": "The proxy for a URL is none for exempt hosts; otherwise that of the most specific entry http.<url>.proxy that applies, where an empty one means none; then that of http.proxy, where an empty one means none; then the first of the environment variables for the scheme of the URL that is set.", "quantifier": "all configurations, environments and URLs", "why_tests_cant": "Quantifies over all configurations, environments and URLs.", "anchors": ["src/other_tools/git_operations/git_config_settings.cpp: GetProxySettings", "src/other_tools/utils/curl_url_handle.cpp: MatchConfigKey, NoproxyStringMatches"]}
{"id": "C125", "title": "rc files are overlayed in order", "statement": "The rc file and the existing files it names under \"rc files\" are overlayed in order; \"rc files\" of overlaying files is ignored. A key has the value of the last file having it, except that distdirs accumulates with later files first, and that just args, just files and invocation log are merged key by key. An existing file that is no JSON object is an error.", "quantifier": "all contents of files, locations, workspaces", "why_tests_cant": "Quantifies over all numbers and contents of rc files.", "anchors": ["src/other_tools/just_mr/rc_merge.cpp: MergeMRRC", "src/other_tools/just_mr/rc.cpp: ObtainRCConfig, ReadJustMRRC", "src/buildtool/common/location.cpp: ReadLocationObject"]}
{"id": "C126", "title": "The command line wins over the rc file, and that over the defaults", "statement": "Every setting given on the command line is used as given; otherwise the value of the rc file (which has to have the right type), otherwise the default. Lists (log files, distdirs, properties) are extended. Files that are searched for are the first existing ones in the order given. A location in the workspace is ignored outside a workspace.", "quantifier": "all rc files, command lines, file systems", "why_tests_cant": "Quantifies over all combinations of command line, rc files and files present.", "anchors": ["src/other_tools/just_mr/rc.cpp: ReadJustMRRC, ReadLocation, ReadOptionalLocationList", "src/buildtool/common/location.cpp: ReadLocationObject"]}
{"id": "C127", "title": "The rc file written by --dump-rc is equivalent", "statement": "The file written by --dump-rc is a single rc file without \"rc files\"; using it as rc file, with otherwise the same command line, gives the same settings.", "quantifier": "all rc files, overlays, command lines", "why_tests_cant": "Quantifies over all configurations.", "anchors": ["src/other_tools/just_mr/rc.cpp: ReadJustMRRC"]}
{"id": "C128", "title": "just-mr as launcher: the arguments of the user come last and unchanged", "statement": "The command executed is just, the subcommand, options due to settings, the arguments of the rc file for this subcommand, the options of the invocation log, and then the arguments of the user, unchanged and in order. \"just-mr do S ARGS\" runs the same as \"just-mr S ARGS\".", "quantifier": "all settings, subcommands and arguments", "why_tests_cant": "Quantifies over all settings and command lines.", "anchors": ["src/other_tools/just_mr/launch.cpp: CallJust"]}
{"id": "C129", "title": "just-mr as launcher: settings are forwarded to exactly those subcommands that support them", "statement": "The options passed to a subcommand of just are exactly those for the settings that concern the subcommand, with the values of the settings; each is an option that this subcommand of just has.", "quantifier": "all settings and subcommands", "why_tests_cant": "Quantifies over all settings; relates the tables of two programs.", "anchors": ["src/other_tools/just_mr/launch.cpp: CallJust", "src/other_tools/just_mr/utils.hpp: kKnownJustSubcommands", "src/buildtool/main/cli.cpp: ParseCommandLineArguments", "src/buildtool/common/cli.hpp"]}
{"id": "C130", "title": "Mistakes in an rc file are reported", "statement": "A key of an rc file whose value does not have the documented form leads to an error instead of being ignored or reinterpreted.", "quantifier": "all rc files", "why_tests_cant": "Quantifies over all rc files.", "anchors": ["src/other_tools/just_mr/rc.cpp: ReadJustMRRC", "src/other_tools/just_mr/rc_merge.cpp: MergeMRRC", "src/buildtool/common/location.cpp: ReadLocationObject"]}
{"id": "C131", "title": "Places to fetch from are tried in the order of preference", "statement": "When fetching an archive or a git commit, the local mirrors set for the URL are tried first, in the order given; then the URL and the mirrors of the repository, those on preferred hosts first, in the order of the list of preferred hosts, and otherwise in the order given. No place is lost or tried more often than it is given. A list with an entry that is not a string is ignored; additional variables to inherit that are strings are used.", "quantifier": "all configurations, URLs, mirrors and ways to take the host from a URL", "why_tests_cant": "Quantifies over all lists of mirrors and hosts, including duplicates and unparsable URLs.", "anchors": ["src/other_tools/just_mr/mirrors.hpp: GetLocalMirrors, GetPreferredHostnames, GetInheritEnv, SortByHostname", "src/other_tools/utils/content.hpp: NetworkFetchWithMirrors", "src/other_tools/root_maps/commit_git_map.cpp: NetworkFetchAndSetPresentRoot"]}
{"id": "C132", "title": "Fetching gives the content asked for, if one of the places has it", "statement": "A fetch succeeds only with the content (or commit) asked for; failure of all places is reported with all of them having been tried; and if one of the places has the content or commit, then the fetch succeeds.", "quantifier": "all configurations and behaviours of the places", "why_tests_cant": "Quantifies over which of the places answer and with what.", "anchors": ["src/other_tools/utils/content.hpp: NetworkFetchWithMirrors", "src/other_tools/ops_maps/content_cas_map.cpp: FetchFromNetwork", "src/other_tools/root_maps/commit_git_map.cpp: NetworkFetchAndSetPresentRoot"]}
{"id": "C133", "title": "Remote calls are repeated a bounded number of times, with bounded pauses", "statement": "A call that fails for lack of availability is repeated until it succeeds, fails finally, or the number of attempts set is reached; the result is that of the last call. The pause starts with the initial one and doubles with each attempt up to the maximal one, plus a random addition of at most three times as much.", "quantifier": "all settings, outcomes of calls and random values", "why_tests_cant": "Quantifies over all sequences of outcomes, settings of 32 bits and random numbers.", "anchors": ["src/buildtool/common/remote/retry.cpp: WithRetry", "src/buildtool/common/remote/retry_config.hpp: RetryConfig"]}
{"id": "C134", "title": "Definitions of rules are taken as written, or refused", "statement": "The definition of a rule is accepted exactly if it is an object with an expression, lists of strings for the fields, variables and taints, well-formed implicit, anonymous, import and transition entries, existing imported expressions, no field with two kinds or with a reserved name, and transitions only for fields about targets. The rule then has exactly the fields, variables, dependencies and imports written; each field about targets has the transition written or else the empty one. Other entries have no influence and are warned about, unless they are documentation; in targets of that type a key is unexpected exactly if it is neither a field to be set nor reserved.", "quantifier": "all JSON values as definition, all ways to parse names and all sets of existing expressions", "why_tests_cant": "Quantifies over all JSON values; tests have a few definitions.", "anchors": ["src/buildtool/build_engine/base_maps/rule_map.cpp: CreateRuleMap, ReadAnonymousObject, ReadImplicitObject, ReadConfigTransitionsObject", "src/buildtool/build_engine/base_maps/user_rule.hpp: UserRule::Create, GetDuplicates, FindDuplicates", "src/buildtool/build_engine/base_maps/field_reader.hpp: ReadStringList, ReadEntityAliasesObject, ExpectFields"]}
{"id": "C135", "title": "Every field of an accepted rule has a definite meaning", "statement": "In an accepted rule no field is listed twice, no name has two kinds or is a key reserved in targets, and each anonymous field takes its nodes from a target field or implicit field of the rule.", "quantifier": "all JSON values as definition, all ways to parse names and all sets of existing expressions", "why_tests_cant": "Quantifies over all JSON values; tests have a few definitions.", "anchors": ["src/buildtool/build_engine/base_maps/rule_map.cpp: ReadAnonymousObject", "src/buildtool/build_engine/base_maps/user_rule.hpp: UserRule::Create", "src/buildtool/build_engine/target_map/target_map.cpp: anon_positions"]}
{"id": "C136", "title": "The archive of a tree is the tree", "statement": "If generating the archive of a tree is reported as success, the archive has exactly one entry for each file, link and directory in the tree, with its path, type, permissions and content, in an order that depends on the names only. It is reported as success exactly if all objects of the tree could be obtained and all entries could be written; otherwise no archive is left.", "quantifier": "all trees of any depth, all availabilities of objects and results of writing", "why_tests_cant": "Quantifies over all trees, missing objects, orders of hash tables and write errors.", "anchors": ["src/buildtool/main/archive.cpp: add_to_archive, GenerateArchive", "src/buildtool/main/install_cas.cpp: FetchAndInstallArtifacts"]}
{"id": "C137", "title": "Object ids on the command line stand for the object printed that way", "statement": "An object id as printed by the tool is read as the object it was printed for. The opening bracket, the size and the type can be left out; a missing type stands for a file. Exactly the texts that start with a valid hash, alone or followed by a colon, are accepted, and the object has that hash. Sizes that are no numbers and unknown types are refused.", "quantifier": "all texts, objects and both hash types", "why_tests_cant": "Quantifies over all texts and objects.", "anchors": ["src/buildtool/main/install_cas.cpp: ObjectInfoFromLiberalString", "src/buildtool/common/artifact.hpp: ObjectInfo::ToString"]}
{"id": "C138", "title": "Expression functions see only the variables they declare and call only what they import", "statement": "The value of an expression function depends on the environment only through the variables it declares. A call in its body runs the function that is imported under this name by the function containing the call, whatever its callers import or provide; the called function sees the variables declared by both, all others are null; calling a name that is not imported is an error. Evaluation of functions ends, if the caller provides no functions. The transition used where none is given leaves the configuration unchanged.", "quantifier": "all functions with arbitrarily nested imports, all environments and all functions provided by the caller", "why_tests_cant": "Quantifies over all functions, imports and environments.", "anchors": ["src/buildtool/build_engine/base_maps/expression_function.hpp: ExpressionFunction::Evaluate, kEmptyTransition"]}
{"id": "C139", "title": "Names of expressions stand for the functions that are defined under them", "statement": "An expression function is read exactly if its definition is an object with a body, lists of strings as variables and an object of names as imports, where a missing list or object stands for an empty one, and if all imports, with names taken relative to the importing function, can be read as well. The function has just this body, these variables and these imports. A name stands for at most one function. Functions that need themselves, directly or through others, are refused, and so are those with an import that cannot be read, used or not.", "quantifier": "all sets of definitions, with arbitrarily deep imports", "why_tests_cant": "Quantifies over all sets of definitions and all chains of imports.", "anchors": ["src/buildtool/build_engine/base_maps/expression_map.cpp: CreateExpressionMap", "src/buildtool/build_engine/base_maps/field_reader.hpp: FieldReader"]}
{"id": "C140", "title": "The definitions of a module are read from its directory, and only from inside the repository", "statement": "The definitions of a module are the content of the file of the configured name in the directory the name of the module leads to, however this name is written. Modules that lead above the root of the repository, or are absolute, have none. Definitions are there exactly if the root is not absent and the file holds a JSON object; where the file is optional, a missing one stands for no definitions. Nothing outside the root has an influence.", "quantifier": "all names of modules and files and all roots", "why_tests_cant": "Quantifies over all module names, file names and contents of roots.", "anchors": ["src/buildtool/build_engine/base_maps/json_file_map.hpp: CreateJsonFileMap"]}
{"id": "C141", "title": "Addresses, properties and dispatch lists are read as written, or refused", "statement": "An address is accepted exactly if it is a host name, a colon and the number of a port, and is then this host and port; all others are refused with an error. A property is the text before the first colon with the text after it as value. A dispatch list is accepted exactly if it is a list of pairs of an object of strings and an address, and gives these pairs in order.", "quantifier": "all texts and JSON values", "why_tests_cant": "Quantifies over all texts given on the command line, in files or by clients.", "anchors": ["src/buildtool/common/remote/remote_common.hpp: ParseAddress, ParseProperty, ParseDispatch", "src/buildtool/common/remote/port.hpp: ParsePort"]}
{"id": "C142", "title": "The settings for remote execution are those given", "statement": "Settings for remote execution are accepted exactly if the address of the execution, that of the cache, the dispatch file and all properties, as far as given, can be read. The settings are then what was given: without address of a cache it is the address of the execution, \"local\" stands for no remote cache, and for a property given several times the last value counts.", "quantifier": "all combinations of settings and all their texts", "why_tests_cant": "Quantifies over all combinations and lists of settings.", "anchors": ["src/buildtool/execution_api/remote/config.cpp: RemoteExecutionConfig::Builder::Build"]}
{"id": "C143", "title": "Builds for different backends do not share target-cache entries", "statement": "Settings that differ in the address for remote execution, the properties or the dispatch list use different directories of the target cache, unless hashes or text forms collide. When a cache is switched to the settings of a request, as the serve service does, the directory used is that of the request.", "quantifier": "all settings, in particular all that can be read from the command line, and all pairs of settings", "why_tests_cant": "Quantifies over all pairs of settings.", "anchors": ["src/buildtool/storage/backend_description.cpp: BackendDescription::Describe", "src/buildtool/storage/backend_description.hpp: operator==", "src/buildtool/storage/target_cache.hpp: WithShard"]}
{"id": "C144", "title": "Whoever asks for encrypted connections gets them", "statement": "If any of the files with certificates and keys is given, all connections of clients and services are encrypted with the contents of these files, each used for its purpose, or an error is reported; never is the connection made in the clear. Clients with a certificate present it, and services that know the certificate of an authority serve only clients that present one.", "quantifier": "all combinations of files given, missing, unreadable or of any content", "why_tests_cant": "Quantifies over all combinations and contents of files.", "anchors": ["src/buildtool/auth/authentication.hpp: Auth::TLS::Builder::Build", "src/buildtool/main/main.cpp: CreateAuthConfig", "src/buildtool/common/remote/client_common.hpp: CreateChannelWithCredentials", "src/buildtool/execution_api/execution_service/server_implementation.cpp: Run"]}
{"id": "C145", "title": "Stored things of different kind do not get into each other's way", "statement": "All directories of a storage are below its build root. Things of different purpose (files, executables, trees, large objects, action cache, target cache, repositories, executions, temporary files), generation or protocol are stored in directories of which none is inside another, except that the compatible protocol stores trees as files. Settings are accepted exactly if the root is absolute and there is at least one generation.", "quantifier": "all build roots, numbers of generations, pairs of generations, protocols and purposes", "why_tests_cant": "Quantifies over all roots and pairs of generations.", "anchors": ["src/buildtool/storage/config.hpp: StorageConfig, StorageConfig::CreateGenerationConfig, StorageConfig::Builder::Build"]}
