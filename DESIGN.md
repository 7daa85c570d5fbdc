# Formal model of just-buildsystem/justbuild in Rocq (Coq 8.16.1)

## Layout

`rocq/theories/<Area>/`, per area:

* model files (`Model.v`, or several, see the table) – Gallina definitions modelling the C++ code function by
  function; every definition cites file and lines in /repo and states its simplifications;
* specification files (`*Spec.v`) – the small, separate vocabulary used in the statements of the theorems;
* proof files – lemmas;
* `*Props.v` – the property theorems `Cxx_…`, each followed by `Print Assumptions`, and `Example`s
  `Cxx_nonvacuous` (or a file `Examples.v`/`Witness.v`) showing that the hypotheses are met by a concrete,
  non-trivial case.

`properties.jsonl` lists the properties, `MANIFEST.json` maps them to theorems (the note of a partial claim says what
is missing), `seeded/LOG.jsonl` records the experiments with wrong programs.

Naming: `_partial` – proved under a restriction that the English property does not have; `_refuted` – the full
property is false of the (faithful) model, with a concrete witness. Refuted theorems are findings about the code,
collected below.

## General modelling decisions

* `std::string` is Coq `string` (8-bit characters); `operator<` on strings is the lexicographic order of unsigned bytes.
* `std::map` is an association list sorted by key. `std::unordered_map`/`unordered_set` are lists; where the order of
  enumeration could matter, theorems quantify over every order.
* `std::nullopt`, `unexpected`, null pointers and exceptions are `None` or an error constructor. Texts of messages are
  not modelled. Undefined behaviour is a distinct outcome where it can be reached (e.g. `Fault` in Async/Cycle.v) and
  excluded by a theorem, or stated in the comment of the definition.
* Hash functions are an arbitrary function `H`, a parameter of definitions and theorems. No theorem assumes it injective;
  where equality of hashes is used to conclude equality, the theorem either concludes "or `H` collides on these two
  strings that were hashed", or assumes the absence of a collision between the concrete strings hashed.
* Concurrency: transition systems whose steps are critical sections and atomic accesses; theorems are about all
  reachable states, i.e. all schedules, numbers of threads and user callbacks. Memory is sequentially consistent.
* File system: a step of the storage is one system call with atomic effect (`link`, `rename`, `unlink`, write of a
  temporary file); a crash or a concurrent process can come between any two steps.
* Recursion that is not structural has explicit fuel with a distinct out-of-fuel result; theorems either give a bound on
  the fuel needed or speak about every sufficiently large fuel.
* Library code outside /repo enters as an explicit parameter with the properties used of it as hypotheses
  (`number_text ndump`, `fixed_length H`, …), or as a definition written after its specification (see trusted base).

## Properties: what is modelled and how it is proved

### Values and expressions

| id | model | proof |
|----|-------|-------|
| C01 | LinkedMap/Model.v: `LinkedMap` (linked_map.hpp) as a tree of layers, `Find`, `ComputeSortedItems` with its merge loop, `empty`, `operator==` | refinement to a flat finite map, induction over the layering |
| C02 | `FindConflictingDuplicate` (linked_map.hpp) | induction over both sorted lists |
| C03, C04 | `Union`, the divide-and-conquer in evaluator.cpp | strong induction over the length of the list |
| C05 | Expr/Model.v: `Expression` (expression.cpp): `ToJson`, `ToHash`, `IsCacheable`; Expr/Json.v: `json::dump` | structural induction extracting a collision of `H`. Partial: results and nodes are compared by JSON form |
| C06, C42 | Expr/Eval.v: the evaluator (evaluator.cpp) with all built-in functions | induction over fuel and over argument lists; termination by a bound on the fuel |
| C07 | Expr/Model.v: `Configuration` (configuration.hpp) | induction over lists of variables |
| C08, C09, C11, C12, C13 | the built-ins in Expr/Eval.v | induction over lists and strings; C13 partial |
| C10 | `join_cmd` in Expr/Eval.v, against an independent POSIX word splitter in Expr/OpsSpec.v | induction over words and characters |
| C43 | Expr/Json.v (`dump`) and the `json_encode` built-in | `dump` is injective: simultaneous parsing argument |
| C47, C48, C49 | Result/Model.v: target_result.cpp (serialisation of provided values into a table of nodes shared by hash, and back), target_cache_entry.cpp, `TargetNode::operator==` | invariant of the table relative to the set of sub-values, then reading by structural induction with a memo invariant. C48 for arbitrary JSON by induction over the reader's recursion |

### Paths, names, codecs

| id | model | proof |
|----|-------|-------|
| C14, C15, C16 | Path/Model.v: path.hpp on top of `lexically_normal` (C++17 fs.path.generic) | induction over components; meaning of a path is a walk in a directory stack (Path/Spec.v). C16 partial |
| C17, C41 | Hex/Model.v: hex_string.hpp incl. `std::stoul` base 16 | induction over strings. C41 refuted |
| C18 | Path/Model.v: module names (entity_name.hpp) | as C14; partial, the full claim is refuted |
| C40, C46 | Describe/Model.v: digests, object infos (artifact.hpp), artifact descriptions (artifact_description.cpp), action descriptions (action_description.hpp): printing and parsing | field lookups; decimal printing and `stoul` by induction over digits |

### Trees and files

| id | model | proof |
|----|-------|-------|
| C19 | GitTree/Model.v: `GitRepo::CreateTree`, `ReadTreeData`; the Git tree format as parser in GitTree/Spec.v | uniqueness of sorting; parse after print |
| C20, C21, C44 | TreeOps/Model.v: tree_operations_utils.cpp, tree_structure_utils.cpp over a store of tree objects | induction over the depth of trees; Merkle argument with explicit collision. C20 partial |
| C22, C23 | Chunker/Model.v: file_chunker.cpp with its buffer, stream flags and read errors | invariants over buffer positions |

### Input roots and transfers

| id | model | proof |
|----|-------|-------|
| C50 | Upload/Model.v: directory_tree.cpp, blob_tree.cpp | invariant of the partial directory over the list of inputs; extensionality of directories. Partial, refuted for trailing slashes |
| C51, C53, C54 | Upload/Model.v: common_api.cpp, `VerifyOrUploadTree` of executor.hpp, git_api.cpp, local_api.cpp as programs that query, read and upload | weakest preconditions over a growing store (Upload/Logic.v) with completeness of the store as invariant, adequate for all interleavings; structural induction for success. C54 partial and refuted |
| C52 | same programs | all upload calls of a program; invariant on the size of the container |

### Storage

| id | model | proof |
|----|-------|-------|
| C24–C30 | Storage/Model.v: generations, CAS for files, executables and trees, large objects (split, splice), uplinking, action cache, target cache, garbage collection, compactification, as programs over one shared file system | a small program logic (Hoare.v) over all interleavings with other processes and crash points; invariants over histories |

### Concurrency

| id | model | proof |
|----|-------|-------|
| C31, C32 | Async/Map.v: async_map.hpp, async_map_node.hpp, async_map_consumer.hpp | inductive invariants over all schedules; settling by a variant |
| C33 | Async/Cycle.v: `DetectCycle` | depth-first search correctness by fuel induction |
| C34 | Async/Tasks.v: task_system.cpp, notification_queue.hpp | inductive invariants; liveness as "not all can be asleep" and a variant |
| C35, C36 | Dag/Traverse.v: traverser.hpp | inductive invariants over all interleavings |
| C37 | Dag/Graph.v: dag.cpp | invariants over sequences of `Add` calls; connection to the traversal |

### Repositories

| id | model | proof |
|----|-------|-------|
| C38 | Repo/Minimizer.v: dfa_minimizer.hpp | marking = distinguishability; greatest bisimulation |
| C39, C45 | Repo/Keys.v, KeyCache.v: repository_config.cpp | canonical numbering of the reachable graph; histories of `SetInfo`/queries. C45 partial |


### Execution

| id | model | proof |
|----|-------|-------|
| C55 | Executor/Wire.v: protobuf encoding of the messages of bazel_msg_factory.cpp:41-65,176-260,916-934; Executor/Local.v: `CreateAction` | injectivity of the wire format (prefix-free varints, length-delimited fields), uniqueness of sorted lists; named collisions |
| C56 | Executor/Local.v: local_action.cpp, local_response.hpp, outputscheck.hpp; effects of commands are an arbitrary oracle | invariant over histories: every entry of the cache comes from the latest storing run. Partial, refuted for symlinks as directories |
| C57 | Executor/Process.v: executor.hpp | characterisation of success and of the writes; walks along paths for the output paths. Partial, refuted for working directories with ".." |
| C58 | Executor/Build.v: replay of the log of any traversal (Dag/Traverse.v) with Process.v | schedule-free inductive semantics of artifacts; invariant over logs; functionality by nested induction |
| C59 | Executor/Rebuild.v: class Rebuilder | list induction |

### Analysis of targets

Defining expressions of rules and fields of targets are arbitrary interactive programs (`script`): they get the configuration restricted to the
declared variables and may call the functions offered by the analysis (FIELD, DEP_ARTIFACTS, ACTION, RESULT, ...), whose effects are modelled. A target
is analysed by a program that requests results of other configured targets (`prog`); `analyses` is its big-step semantics, `crashes` the
runs into undefined behaviour, `analyse` an executable version proved sound.

| id | model | proof |
|----|-------|-------|
| C60 | Analysis/{Stage,Model}.v: target_map.cpp, built_in_rules.cpp, export.cpp, absent_target_map.cpp, utils.cpp, result_map.hpp | induction over derivations, per kind of rule; the configuration is read only through `Prune` to reported variables; transitions remove the variables they set |
| C61 | as C60 | every program passes the taints and implied keys of all it requests to its result; induction over paths in the dependency graph |
| C65 | as C60, export.cpp, ConfigureRule | inversion of runs, lookup laws of configurations |
| C66 | as C60; dereferences of null pointers are the outcome `PCrash` | partial: programs contain no crash if deps of generic targets evaluate; refuted otherwise |
| C62 | Analysis/{Stage,Model}.v (utils.cpp, ExprToTree) | paths in normal form spell lists of names; the conflict search is exact for those; invariant `tidy` over the analysis. Partial: refuted for names that are not in normal form |
| C63 | Analysis/Stage.v: `createAction`, `tree_id`, `overlay_id` | all parts of the hashed text have fixed length, hence are determined; C05 for maps, injectivity of the JSON text for trees; otherwise a named collision |
| C64 | Analysis/Model.v: `do_action` | inversion; lookup laws of maps |
| C67 | Analysis/{Model,HonestSpec,Buildable}.v | least fixed point `buildable` over the recipes of the target and its dependencies; induction over the analysis with an invariant for every value a rule sees |
| C68 | Traverser/Model.v: `ToResult` as sorting and deduplication by identifier | lookup and sortedness laws of `aemplace`; extensionality of strictly sorted lists |
| C69 | Traverser/{Model,Spec,Proofs,Gather}.v: `BuildGraph` on the graph of Dag, built by the traversal of C36 with the executor of C57 | graph construction gives a full, acyclic and linked graph (rank = depth of `buildable`); refinement of node values to the graph-free least fixed point `comes_out`; then C36 and C58 |
| C70 | Symlinks/Model.v: value creator as requests and continuations, `value` over all choices of the creating request; Spec.v: `leads`, `resolved` | invariant of all requests and values (`run_safe`), determinism of `leads`, view of the result by induction on paths |
| C71 | same | derivation of the run by induction on `resolved`; counterexample closed under an invariant set of requests |
| C72 | Spec.v: `walks` (component by component) | equivalence of `leads` and `walks` by induction on both; counterexample |
| C73 | same, mode ResolvePartially | invariant of all values; simulation between the tree and its image in both directions; counterexample |
| C74 | same, mode Ignore | invariant for soundness, induction on trees for success |
| C75 | Names/Model.v: parsers for JSON and expressions, names, order; Spec.v: `refers` | case analysis on the source, `walk` lemmas of Path; counterexample for relative modules |
| C76 | Roots/Model.v: FileRoot over Git trees and file systems, source map; Spec.v: `shown`, `stands_for` | invariant on the cache of read trees preserved by all questions (Answers.v, Histories.v); file system walk (Files.v); counterexamples (SameProps.v) |
| C77 | Roots/Questions.v: all questions as one transition | the answers are functions of the tree shown, given the invariant; for non-ignoring roots of any tree by soundness of markers |
| C78 | Roots/Markers.v: histories of checks, kills, collections | invariant: every marked identifier belongs to valid trees only; induction on trees |
| C79 | Roots/Model.v: TreeTarget | induction on the depth, generic in the kind of root (References.v) |
| C80 | Roots/Model.v: GlobTarget | as for C79 |
| C81 | Remote/Names.v: digests on the wire, resource names, the splitter as written | round trip by induction on the name, for all instance names without key words |
| C82 | Remote/Stream.v: incremental reader, client and server loops, cuts of the connection | induction on the remaining messages: what was sent is a prefix of the content; complete iff the status says so |
| C83 | Remote/Client.v: building of requests up to the size limit, retries, merging of answers; remote side an arbitrary state machine | induction on the fuel of the request loop: every digest is answered, or put back and counted as missing |
| C84 | Remote/Client.v: grouping of blobs, batches and streams, recursion on what was not confirmed | invariant: confirmed digests are stored, the number of unconfirmed blobs decreases |
| C85 | Remote/Client.v: batch reads, streams for large objects, merging by digest, order | induction over batches; the data of a blob are hashed before it is kept |
| C86 | Remote/Server.v: requests of the server as sequences of operations of the storage model, run in a world where others act and connections break | the server is a truthful remote side (induction on the request over a relation of handled requests), then C84 and C26 |
| C87 | Remote/Server.v: reading, streams, splitting, splicing, cached results | induction on requests; C26, C24, C82 |
| C88 | Remote/Operations.v: cache of operations with its garbage collection, events of executions, waiting | induction on events: what the cache has is the last said, or it is done; the collection loop drops a prefix of the sorted entries |
| C89 | Rehash/Model.v: conversions as programs of accesses to the storages and the cache, run by any number of threads; Rehash/Directory.v: writing and reading Directory messages | a predicate on programs (what each access may rely on and must guarantee), its invariance under the steps of the system; induction on directories |
| C90 | same, with generations of objects and cache entries | the same invariant, with the objects stored so far |
| C91 | same, undefined behaviour is an outcome of its own | induction on programs |
| C92 | Computed/Model.v: the stack of partial trees and the walk over the sorted map of artifacts | invariant of the stack (a zipper into the directory built so far); the order of the paths makes the entries of a directory contiguous |
| C93 | Staging/FileSystem.v (a directory tree and the system calls used), Staging/Model.v (traversal of trees, staging of inputs), Staging/Cas.v (reading trees from storage) | the leafs of a tree determine it; every operation changes one path; induction over the list of leafs |
| C94 | the same, with installing from storage and from a git repository | frame property of each operation, invariant over the list of artifacts; refutations by computation |
| C95 | Staging/Collect.v: reading a directory, with a storage that may refuse objects | induction over the depth; sorting makes the order of traversal irrelevant |
| C96 | the same | composition of C93, C94 and C95 |
| C97 | Fetch/World.v: storage of just-mr (generations of Git caches and association files, CAS, checkout) and its operations with everything they may answer; Fetch/Model.v: the set-up of roots as programs over these operations; Fetch/Spec.v: what a root stands for | invariant of all reachable states (any number of concurrent runs, stopped at any point, rotations); per program a weakest-precondition style induction (Fetch/Proofs.v, Safety.v) |
| C98 | the same | the same; refutation by a concrete history |
| C99 | the same | the same; refutation by two runs one after the other |
| C100 | the same; Fetch/Doing.v: operations contacting the outside | invariant; structural induction over programs |
| C101 | the same | structural induction over programs; refutation by a history with a rotation |
| C102 | the same | structural induction over programs; refutation by a concrete history |
| C103 | the same, with the tree computed in memory | invariant; order of entries is irrelevant for tree ids (C19) |
| C104 | Incremental/Model.v: a build (graph traversal, processing of actions, local execution) on an action cache that others use at the same time; Incremental/Spec.v: deterministic commands, values without a cache | invariant: entries of the cache are results of executions that took place; simulation of the build by the build without cache (Incremental/Proofs.v), then C58 |
| C105 | the same; Spec.v: made | invariant of the build (Incremental/Backed.v) |
| C106 | the same | invariant: an entry that is served stays, invariant of the log (Incremental/Backed.v, Again.v) |
| C107 | Service/Messages.v: the messages of commands and actions and their parsers; Service/Model.v: storage, requests under way, answers, local builds, removals as steps; the client's requests | parsers invert the printers (MessagesProofs.v), the server's action is the client's up to properties and timeout (Proofs.v), invariant of the history: entries and answers are results of executions named by their digest (Backed.v) |
| C108 | Service/Build.v: the build with a state of the service per action | simulation by the local build (BuildProofs.v), then C58 |
| C109 | the same | refuted by a concrete history |
| C110 | Setup/Model.v: the two sets of ReachableRepositories as lists, the loop with a bound on its rounds; writing of the configuration | invariant of the loop, against the closure of an inductive relation (Chains.v); sets of keys of the output (Fill.v) |
| C111 | Setup/Model.v: resolving of names, parsing of computed roots, layers as in the code, with the entries that reading creates | functional correctness against an inductive specification of descriptions (Chains.v, Fill.v, Just.v); refutation by a witness and in general |
| C112 | the same and DetermineRoots of just | composition: what is written is parsed as what it stands for (Just.v); refutations by witnesses |
| C113 | the same | measure on the queue; circles keep the loop going for every bound |
| C114 | ReadConfiguration | induction on the configuration; refuted by a witness |
| C115 | the storage of Storage/Model.v, all its operations and the garbage collector | an invariant of every single access (Tcache/Provenance.v): what is in the caches was stored by a started operation, what is in the CAS has its name as hash |
| C116 | Tcache/Model.v: each key of the writer map as an automaton, running on the storage next to all its other users | invariant over the steps, using the guarantees of the storage operations (Storage/Run.v) |
| C117 | Tcache/Model.v: text of the key as printed by dump(2) | quoted strings are prefix-free, JSON texts unambiguous (C43); composed with C115 |
| C118 | AddCas/Model.v: the importer of add-to-cas as functions on a file system with inodes and links, the CAS as map to inodes | induction over the recursion of the importer against inductive specifications of the tree to be stored; uniqueness of that tree |
| C119 | as C118 | as C118, with an inductive definition of where links lead; counterexample computed for links through links |
| C120 | as C118; permissions and times of inodes | invariants over the stores; counterexamples computed |
| C121 | AddCas/Model.v: RetrieveSubPathId on trees in git format | induction over the path, with the parser of C19 |
| C122 | GitConfig/Model.v: matching of keys, the map of matches with its comparison, the SSL callback; parser of URLs as parameter | equivalence of the matching functions with a specification after git-config(1); the head of the map is the last of the best matches, by induction over the entries |
| C123 | GitConfig/Model.v: splitting and matching of patterns | equivalence with a specification on labels; the IPv6 case computed |
| C124 | GitConfig/Model.v: GetProxySettings | composition of C122 and C123; counterexamples computed |
| C125 | Rc/Model.v: reading and merging of rc files, locations; file system and JSON parser as parameters | equivalence with a relation for the files taking part; induction over the overlays |
| C126 | Rc/Model.v: ReadJustMRRC, setting by setting | relational specification per kind of setting, proved by cases |
| C127 | Rc/Model.v: --dump-rc | settings depend only on keys other than "rc files" |
| C128 | Rc/Launch.v: CallJust up to execvp | decomposition of the command |
| C129 | Rc/Launch.v and, independently, the options of the subcommands of just (Rc/LaunchSpec.v) | the generated part parses to exactly the specified pairs; case analysis over subcommands |
| C130 | Rc/Model.v | from C126; counterexamples computed |
| C131 | Mirrors/Model.v: GetLocalMirrors, SortByHostname etc.; taking the host from a URL is a parameter | result equals a recursive gathering by host; from that permutation, order, stability; uniqueness of such an order by induction |
| C132 | Mirrors/Model.v: loops over all places with outcomes as a parameter, checks afterwards | characterisation of the first place that answers; counterexamples |
| C133 | Mirrors/Model.v: WithRetry with a wrapping counter, GetSleepTimeSeconds modulo 2^32 | induction over the attempts left; closed form of the pause |
| C134 | Rules/Model.v: ReadRule with Create, sorting and set intersections as in the code; parsing of names is a parameter | description and consistency of a definition as relations on JSON (Rules/Spec.v); equivalence by induction on lists; intersection of sorted lists is the set intersection |
| C135 | Rules/Model.v as for C134 | from C134; counterexamples for what is not checked |
| C136 | Archive/Model.v: add_to_archive as list of the entries written, with joining of paths; retrieving and parsing of trees are parameters | induction over the depth, with the sorted list of all paths in the tree as witness; a sorted list is determined by its members |
| C137 | Describe/Liberal.v: reading with std::getline and atol | induction on texts, with the lemmas about printing of numbers from C40 |
| C138 | Functions/Model.v: functions as trees of imports, evaluated by the evaluator of Expr with the call of imports as provided function | agreement of pruned environments; induction on the tree of imports and on the depth of bodies |
| C139 | Functions/Load.v: reading of definitions with imports, bounded by a depth that is arbitrary | relation between names and functions as mutual inductive definition; soundness by induction on the depth, completeness by induction on the derivation |
| C140 | Roots/ModuleFiles.v: the reader of files with definitions, on top of the paths of C14 and C15 | places of paths as walks; case analysis |
| C141 | Remote/Address.v: parsing of addresses, properties and dispatch lists, with std::stoi and noexcept | induction on texts and lists, with the lemmas about printing of numbers from C40 |
| C142 | Remote/Config.v: building of the settings for remote execution | induction on the list of properties; case analysis |
| C143 | Remote/Backend.v: description of the backend, comparison, directory in the target cache; dump and hashes are parameters | injectivity of the description, by induction on properties and dispatch list |
| C144 | Auth/Model.v: settings for encrypted connections, credentials of clients and services | closed form of the builder, case analysis |
| C145 | Places/Model.v: directories of a storage as lists of components | case analysis over pairs of purposes, injectivity of the names of generations |
## Trusted base

* Coq 8.16.1's kernel (and `coqchk`, used by the check). `vm_compute` appears only on small closed terms in examples
  and witnesses.
* `Print Assumptions` answers "Closed under the global context" for every theorem listed in MANIFEST.json: no axioms,
  neither own ones nor those of the standard library. (The check lists seven constants
  `Coq.ssr.ssrunder.Under_rel.*`: parameters of a module type instantiation in the standard library's `ssr` that gets
  loaded by `Require`; no theorem depends on them.)
* That the Gallina definitions say what the C++ code does. Every definition cites the lines it models; the simplifications
  are stated there and in the headers of the model files.
* The statements: theorem statements in `*Props.v` with the vocabulary of the `*Spec.v` files.

Assumptions on code outside /repo, each visible as a definition or a hypothesis:

| library | where | how |
|---------|-------|-----|
| `std::filesystem::path` (normalisation, concatenation, iteration) | Path/Model.v | definitions after the C++ standard in the form of libstdc++ on POSIX |
| `nlohmann::json::dump` | Expr/Json.v | definition for all values but floating-point numbers; text of doubles: parameter `ndump`, hypothesis `number_text` (text of finite doubles is non-empty, over number characters, with "." or exponent, and injective). Strings are not checked for UTF-8 |
| `nlohmann::json` parsed values | Describe, Result | JSON values with sorted unique keys; conversion double → `size_t` is a parameter `u64_of_num` |
| `std::stoul`, `std::getline`, `std::to_string` | Hex/Model.v, Describe/Model.v | definitions after the C/C++ standards |
| hash functions (SHA1, SHA256) | everywhere | arbitrary `H`; `fixed_length H` where lengths matter |
| libgit2: parsing of tree objects, strict hash verification | GitTree, TreeOps | parser of the Git format in GitTree/Spec.v |
| POSIX shell word splitting | Expr/OpsSpec.v | definition after the POSIX shell command language |
| `std::ifstream` | Chunker/Model.v | `read` delivers a prefix of the remaining bytes, may fail at any call |
| file system | Storage/Model.v | `link`, `rename`, `unlink` atomic; other processes and crashes between any two steps |
| mutexes, condition variables, atomics | Async, Dag | sequential consistency; spurious wake-ups and failing `try_lock` included |
| `std::unordered_map` | Repo, GitTree, Async/Cycle | any enumeration order |
| `std::mt19937_64` | Chunker/Model.v | any table of 256 numbers |

## Modelled and not modelled

Modelled (files of /repo/src): utils/cpp/{hex_string,path}.hpp, utils/automata/dfa_minimizer.hpp;
buildtool/build_engine/expression/{linked_map,configuration,expression,evaluator,function_map,target_result,target_node}.*;
buildtool/build_engine/base_maps/entity_name*.hpp (module names); buildtool/common/{artifact_digest*,artifact_description,
action_description,artifact,repository_config}.* ; buildtool/crypto/hash_info.cpp, tagged hashes of hash_function.cpp;
buildtool/file_system/{git_repo.cpp (trees), object_cas, file_storage, object_type}.*; buildtool/storage/* (local CAS, large
objects, action and target cache, garbage collector, compactifier, file chunker, target_cache_entry); 
buildtool/execution_engine/{dag,traverser,tree_operations}/*, buildtool/tree_structure/*; buildtool/multithreading/
{async_map*,task_system,notification_queue}.*. buildtool/execution_api/{bazel_msg/directory_tree,common/blob_tree,common/common_api}.cpp
in native mode, tree transfers of executor.hpp, git_api.cpp and local_api.cpp. buildtool/execution_engine/executor/executor.hpp
(processing of actions, rebuilder), buildtool/execution_api/local/{local_action,local_response}.*, buildtool/execution_api/utils/outputscheck.hpp, action
digests of bazel_msg/bazel_msg_factory.cpp, utils/cpp/path_rebase.hpp. buildtool/build_engine/target_map/
{target_map,built_in_rules,export,absent_target_map,utils}.cpp, result_map.hpp (adding of results), buildtool/graph_traverser (hand-over to the build), buildtool/file_system/symlinks/resolve_symlinks_map.*,
buildtool/build_engine/base_maps/entity_name.hpp, entity_name_data.hpp, source_map.cpp,
directory_map.cpp, target_map.cpp 1712-1915 (tree and glob references), file_root.hpp, git_tree.*, git_tree_utils.cpp, git_repo.cpp 1846-1959,
bazel_digest_factory.*, artifact_digest_factory.cpp, bytestream_utils.*, bytestream_client.hpp, bytestream_server.cpp (without the storage), incremental_reader.*,
bazel_cas_client.* (without split and splice, and the capabilities), bazel_network.cpp 84-127, bazel_network_reader.cpp 183-230, retry.cpp, back_map.hpp, artifact_blob.*,
execution_service/cas_server.cpp, cas_utils.cpp, ac_server.cpp, bytestream_server.cpp (in native mode), operation_cache.*, operations_server.cpp, execution_server.cpp 200-213, 269-276, 335-358,
execution_api/utils/rehash_utils.cpp, bazel_msg_factory.cpp 66-120, 374-750,
computed_roots/artifacts_root.cpp,
execution_api/common/tree_reader.hpp 70-189, tree_reader_utils.cpp, local/local_cas_reader.cpp (ReadGitTree, ReadDirectory, StageBlobTo), local/local_api.cpp (RetrieveToPaths),
git/git_api.cpp (RetrieveToPaths), local/local_action.cpp 244-405, file_system/file_system_manager.hpp (creating, copying, linking, removing files, as operations on an abstract directory),
bazel_msg_factory.cpp 752-914, git_repo.cpp 2122-2190,
other_tools/ops_maps/content_cas_map.cpp, ops_maps/git_tree_fetch_map.cpp, other_tools/root_maps/{content,commit,tree_id,distdir,foreign_file}_git_map.cpp (control flow over operations on storage and services;
import_to_git_map, resolve_symlinks_map, critical Git operations, serve clients and archive extraction are operations with any answer that their contract allows), storage/fs_utils.cpp 87-180,
repository_garbage_collector.cpp 41-150 (as steps between runs). execution_service/execution_server.cpp 87-332, 361-552, ac_server.cpp (native mode), remote/bazel/bazel_action.cpp,
bazel_response.cpp, action and command messages of bazel_msg_factory.cpp. just_mr/setup_utils.cpp 61-221, 255-315, just_mr/utils.cpp,
just_mr/setup.cpp 77-555 (without the set-up of storage and remotes), utils/parse_precomputed_root.cpp, repo_map/repos_to_setup_map.cpp 44-58, 677-904,
file_system/precomputed_root.cpp, FileRoot::ParseRoot, DetermineRoots of main/main.cpp. main/build_utils.cpp 77-203, storage/target_cache.tpp (all). main/add_to_cas.cpp 51-430 (native mode, without the upload), execution_api/utils/subobject.cpp 34-125 (native mode), file_system/file_storage.hpp AtomicAddFromFile. other_tools/git_operations/git_config_settings.cpp (all), other_tools/utils/curl_url_handle.cpp 34-161, 332-795 (without the URL parser). other_tools/just_mr/rc.cpp (all), other_tools/just_mr/rc_merge.cpp (all), common/location.cpp (all), other_tools/just_mr/launch.cpp 61-425 (without the contents of the metadata file), the table of other_tools/just_mr/utils.hpp 64-154; for comparison the option groups of main/cli.cpp. other_tools/just_mr/mirrors.hpp (all), other_tools/utils/content.hpp 50-92, other_tools/ops_maps/content_cas_map.cpp 38-108, other_tools/root_maps/commit_git_map.cpp 377-470 (fetching only), common/remote/retry_config.hpp (all), common/remote/retry.cpp 25-69. build_engine/base_maps/rule_map.cpp (all but messages), build_engine/base_maps/user_rule.hpp 58-407, build_engine/base_maps/field_reader.hpp 41-238. main/archive.cpp (all but the opening of the archive; libarchive is not modelled). main/install_cas.cpp 68-101. base_maps/expression_function.hpp 41-124. base_maps/expression_map.cpp 29-103. base_maps/json_file_map.hpp 44-122. common/remote/remote_common.hpp 32-135, common/remote/port.hpp 33-56. execution_api/remote/config.cpp (all). storage/backend_description.{hpp,cpp} (all), storage/target_cache.hpp 71-81, 148-153. auth/authentication.hpp (without reading of files), CreateAuthConfig of main/main.cpp and just_mr/setup_utils.cpp, common/remote/client_common.hpp 36-55, credentials in execution_service/server_implementation.cpp and serve_server_implementation.cpp. storage/config.hpp (all).

Not modelled: the command line front ends (main/ and other_tools/just_mr, apart from the above, serve services other than as operations with any answer), the gRPC
transport, running of commands (an oracle in C55, C56, C104-C108), parsing of target files (given as the definition of each target in Analysis),
archive and network code (operations with any answer that their contract allows), remote execution in compatible mode, logging and progress
reporting, the Python and shell helpers; memory management and everything below the C++ memory model.

## Findings

Deviations of the code from what a user would expect, found while modelling; those with a theorem are machine-checked.

* Expressions: quasi-quoting a list that contains an ordinary map fails (C13_map_in_list_refuted). Infinite numbers and
  NaN are printed as `null` and have its hash (C05_infinite_numbers_refuted). The text hashed for a result is not type-tagged inside, so
  a result providing an artifact equals one providing a map that looks like its description, and `is_cacheable` is not part of the hash
  (C05_results_refuted). `escape_chars` works bytewise and can produce invalid UTF-8, on which computing the hash of the
  value terminates the process.
* Stored target results: because of that, two different results can be merged when a target is written to the target
  cache (C47_imitation_refuted). `TargetNode::operator==` compares target fields with string fields
  (target_node.hpp:77; C49_abstract_nodes_refuted). The reader of target cache entries uses `operator[]` of constant JSON
  objects on possibly missing members (undefined behaviour) and recurses without end on cyclic tables.
* Names and paths: `find_first_of("/\0")` searches only for the slash, so names with NUL count as valid
  (C16_valid_file_name_nul_refuted). The relative module ".." is accepted at depth one and absolute relative names are accepted
  (C18_relative_module_refuted). Hex decoding accepts signs and white space inside pairs (C41).
* Object infos: " FAILED" and the origin repository are dropped by printing; the reader accepts a missing bracket, unknown
  types and numbers followed by text (C40_lenient).
* Trees: `ParseGitTree` gives all names that share a hash the type of the first (tree_operations_utils.cpp:137,
  C20_types_refuted). `CreateTree` allows a file and a directory with the same name in one tree.
* Storage: `UplinkLargeBlob` stops looking at the first generation; `Split` ignores a failing write of the large-object entry, after which
  the file is removed (Storage/Examples.v: write_failure_loses_object); results of action and target cache of at least the
  compactification threshold are not spliced when looked up for uplinking, hence lost; `LocalUplinkGitTree` dereferences an
  unchecked optional; implied target-cache entries guard only against direct self-reference.
* Asynchronous map: `IsReady` reads the value without a lock; calling the setter twice overwrites a value others may
  have read; requests of failed nodes stay recorded for cycle detection. Task system: `Finish` called within a task never
  returns; a task queued behind a busy worker waits although other workers sleep (C34_waits_for_busy_worker).
* Action graph: traversing a cyclic graph returns success with nothing built (C36_cyclic_silent). After a failed `Add`
  partial nodes and links stay. Adding an action twice fails.
* Repository keys: setting the description of one repository does not reset the keys of those that depend on it
  (C45_stale_key_refuted, C45_missing_key_refuted).
* Input roots: a path with trailing slash yields a tree entry without name (C50_trailing_slash_refuted).
* Transfers: `ReadDirectTreeEntries` (tree_reader.hpp:48) returns an empty list if the tree cannot be read, so the local API uploads
  such a tree, e.g. one with an upward symlink, without its content (C54_local_refuted). `VerifyOrUploadTree` dereferences the optional size of
  Git objects unchecked (executor.hpp:402; the model assumes that sizes can be read). `FindMissingBlobs` returns a partial result after an exception
  (bazel_cas_client.cpp:323-417; not modelled).
* Actions: a "timeout scaling" that is no number is only logged and then throws; tree actions do not survive `ToJson`/`FromJson`.
* Local execution: a declared output directory that the command creates as a symlink is collected and stored, but the check on cached results
  looks for such symlinks among the files only, so the action runs again each time (C56_served_later_refuted). For actions that declare
  output paths (protocol 2.1) the same holds for every symlink (C56_served_later_paths_refuted).
* Working directories of actions are not normalised: with a/../b the output a/x is looked for at a/../b/x (C57_output_paths_refuted).
* The rebuilder does not notice outputs that only the cached result has; harmless if all results have the declared outputs only (C59).
* A generic target whose "deps" cannot be evaluated makes the analysis dereference a null pointer: `GenericRule` reports the error but does not return
  (built_in_rules.cpp:1552-1556, C66_no_undefined_behaviour_refuted).
* `TargetNode::operator==` compares the target fields of one node with the string fields of the other (target_node.hpp); apparently unused.
* `tree_conflict` compares paths as spelt, but not all callers normalise: TREE of {"./a": X, "a": Y} silently drops one of the entries
  (C62_tree_refuted), an install target with "files" {"./x": .., "x": ..} has a stage with two contents for one place, generated files may be
  named "../x" (C62_all_targets_refuted), and a working directory "b/" adds an empty directory over the inputs in b (C62_working_directory_refuted).
* Outputs of ACTION are not required to stay inside the action's directory; only the built-in generic rule checks (C64_outputs_may_be_outside).
* Symlinks resolved partially: an upward link that leads to a kept link is replaced by the text of that link, which means something else in the new
  directory: a/l -> ../b/m, b/m -> c gives a/l -> c (C73_same_meaning_refuted). Resolved completely: a link reached through a link to the directory
  it is in is reported as a cycle (C71_resolvable_refuted), and link targets are normalised before they are followed, so d/../x is read as x even if
  d is a link (C72_as_the_system_refuted).
* A relative module name may lead to the parent of the workspace: ["./", "..", "t"] written in the top-level module is read as ["", "t"], since only names
  starting with "../" are refused (C75_resolution_refuted); absolute relative modules are accepted as well. File references are reported as ["@", repository,
  module, "FILE", name] or the like, which is not a form that is read (C75_reported_names_read).
* `LookupEntryPyPath` (git_tree.cpp:50) does not pass `ignore_special` on in its recursive call, and a tree is cached as it was first read. In a Git root that
  ignores special entries a file next to an upwards symlink is therefore not found from the third level on, and whether a directory lists its symlinks depends
  on what was asked before (C76_ignoring_refuted, C77_ignoring_refuted, C79_ignoring_refuted, C80_ignoring_refuted).
* On file-system roots TREE references may lead above the root ("../../o"), so that the result depends on files outside of it (C79_outside_refuted); the top
  directory of a Git root referred to as "./" is taken to be empty (C79_top_refuted); a TREE reference to a missing directory is the empty tree.
* "f/" is a source target of a Git root, but not of the same root in the file system (C76_same_refuted). File-system roots follow symlinked directories, Git
  roots do not.
* The server refuses every request for an instance name that ends in a slash, since the splitter does not look at the first character after a slash
  (C81_trailing_slash); sizes in names may be followed by anything ("12abc" is 12).
* Uploading a file and an executable with the same content without asking for missing objects first is reported as failed, although the object was stored:
  the client counts confirmed digests and compares with the number of blobs (C84_same_content_refuted; callers in the program mostly key by digest).
* The client counts answers to an upload without comparing them with what was asked; a remote side that confirms other digests makes it report success, or repeat the upload
  for ever (C84_unasked_refuted).
* Data dumped directly from the remote side to an output are not compared with their digest (C85_dump_refuted). One entry with an error in the answer to a
  batch read drops all objects of this batch.
* A client waiting for an execution that failed on the server waits for ever: the operation was entered as running and is not updated on failure. Its entry is never
  removed from the cache of operations. This also hides the response of an earlier successful execution of the same action (C88_wait_ends_refuted).
* The cache of conversions between native and compatible storage is keyed by the hash alone. In the compatible storage the empty file and the empty directory have the
  same hash, so whichever is converted first decides whether both become a blob or a tree (C89_to_native_refuted). The type in the cache is that of the first
  conversion, so an executable may come back as a plain file (C89_types_refuted); computed roots built from artifacts take over that type.
* Reading a cached conversion links the cache entry to the youngest generation but not the converted object, so after enough garbage collections conversions succeed
  with objects that are gone, and go on doing so as long as the entry is used (C90_refuted).
* A blob that is no Directory message but is requested as a tree, and a failure to store a converted tree, lead to use of an empty optional (C91_to_native_refuted).
* The paths of the artifacts of a target with a user-defined rule are not normalised. In the tree of a computed root, a directory that is spelled in two ways (`./z/x`
  and `z/w`) is entered twice; only the artifacts of the later part are in the tree, without an error. A path leading upwards takes an element from an empty stack
  (C92_refuted).
* Installing a tree leaves out its empty directories, although staging it as input of an action does not (C94_whole_tree_refuted). A computed root that is built, installed
  and imported therefore has another tree id than the one taken from the cache if the target has empty directories (C96_install_and_import_refuted).
* Names of entries of trees are not checked when a tree is staged or installed; an entry `..` (or a name with a slash, if the tree comes from elsewhere) is followed
  out of the directory (C94_stays_inside_refuted).
* A link replacing an empty directory removes it, a file does not. A link with an empty target cannot be staged.
* just-mr: the subdirectory of an archive or commit may name a file; its blob id becomes the root (C97_directories_refuted).
* just-mr: in compatible mode, content obtained by means of a serve endpoint is noted in the map from native to compatible digests with its *native* digest
  (content_cas_map.cpp:303-325); later conversions of that content use it (C102_conversions_refuted).
* just-mr: MoveCASTreeToGit does not check that the imported tree has the requested id. Installing drops empty directories, so for a tree with one, success is reported
  although the tree is not in the Git cache (C98_available_refuted).
* just-mr: the tree the serve endpoint names for a commit is not verified, and it is remembered; later runs without a serve endpoint use it (C99_refuted).
* just-mr: an absent commit root becomes a present one if the commit is found in an older generation of the Git cache (C101_as_wanted_refuted).
* just-mr, seen but not stated as theorems: SHA256 and SHA512 sums are only checked for network downloads; only the first mirror that answers is used, even if what it
  delivers has a wrong hash; of two archives with the same distfile name in a distdir the last one wins.
* The execution service ignores the platform properties and the timeout of actions (execution_server.cpp:87-136, C109_properties_refuted); the local
  execution uses the timeout for the digest only and never enforces it. Standard output or error that cannot be read is answered as empty
  (execution_server.cpp:168-192), and results with exit code zero are stored even if outputs are missing; clients guard against the latter by
  comparing with the outputs they expect.
* A BackendDescription made by the constructor without arguments has no hash (backend_description.cpp:24-32), and comparing it with one made from settings
  uses a null pointer (backend_description.hpp:47-50); `TargetCache::WithShard` does so for a storage whose builder was given no description. `just` always
  gives one, so this is a trap for further users of the interface rather than an error seen by users of the program.
* Encrypted connections: `just execute` and `just serve` set the root certificates of the service but leave `client_certificate_request` at the default of
  gRPC, which is not to ask clients for certificates (server_implementation.cpp:104-112, serve_server_implementation.cpp:209-217). So the services do not
  authenticate clients, although mutual TLS is documented (C144_clients_refuted). Files for certificate and key of the client that are both empty are accepted
  (C144_presented_refuted), and they are accepted without the certificate of the authority, against the manual (C144_authority_refuted).
* just-mr: the name of the target of a computed root is taken from the module (parse_precomputed_root.cpp:92); `"target": ["gen", "headers"]` becomes
  `["computed", repo, "gen", "gen", ...]` (C111_roots_refuted, C111_other_target).
* just-mr: GetTargetRepoIfPrecomputed (setup_utils.cpp:61-80) never ends if descriptions that are names go round in circles; the check for this in
  ResolveRepo is never reached (C113_ends_refuted, C113_circle_refuted).
* just-mr setup --all: an unknown layer silently becomes null, a configuration that just rejects (C112_accepted_refuted). setup-env: a layer that is the main
  repository is dropped without notice, so that just uses another root for it (C112_layers_refuted).
* just: a main repository that is a directory with "ignore-special" is used without (main.cpp, DetermineRoots: C112_roots_refuted).
* just-mr: a repository listed as absent but described by the name of another one is not absent; one not listed is if the other one is (C114_absent_refuted).
* `add-to-cas` on a directory stores its files as owner: they become hard links to the files of the CAS, are made read-only, and get the fixed time of CAS files; a later modification in place corrupts the CAS (C120_untouched_refuted, C120_independent_refuted). Single files are copied.
* As hard links are the only way of adding as owner, `add-to-cas` of a directory on another file system than the cache fails, after having changed permissions and time of the file (C120_other_file_system_refuted).
* `add-to-cas` with resolved links takes a link reached through a linked directory relative to the path it was reached by (C119_lexical_refuted): with `x -> s/l`, `s -> a/b`, `a/b/l -> ../f`, the content stored for `x` is that of `f`, not of `a/f`.
* `install-cas --path` (RetrieveSubPathId) on a path that does not exist in the tree warns and goes on with the last object reached, e.g. installs the parent directory (C121_missing_refuted).
* just-mr: an entry `http.https://user@host.sslVerify` (or `.proxy`) makes every fetch from an https URL without a user fail ("matching config key failed"): MatchConfigKey treats
  the missing user of the URL as an error instead of a mismatch (C122_user_refuted).
* just-mr: the comparison of matches (ConfigKeyMatchCompare) is not a strict order, as std::map requires; with the usual implementation it does what is intended (C122_ssl_partial).
* just-mr: an empty `http.<url>.proxy` that applies switches off the proxy even if a more specific entry names one (C124_empty_refuted); an empty `http.proxy`
  does not switch off that of the environment (C124_generic_empty_refuted). Both are different in git.
* just-mr: patterns in no_proxy for IPv6 addresses do not apply to URLs with a port (C123_ipv6_refuted).
* just-mr: with any setting for logging (e.g. "log files" in the rc file) `just-mr version` fails, as the options are passed to `just version`, which has none (C129_version_refuted).
* just-mr: a "distdirs", "just args", "just files" or "invocation log" of the wrong type is an error only if no other rc file is overlayed; otherwise it is dropped silently (C130_overlay_refuted).
* just-mr: a misspelled "root" of a location is not reported, the path is taken relative to the current directory (C130_root_refuted); an "absent" that is no list is ignored, so that
  repositories meant to be absent are fetched (C130_absent_refuted); a negative "max attempts" means 4294967295 or so (C130_attempts_refuted).
* just-mr: the first mirror that answers is final. A mirror delivering something else (say, a login page) or a local git mirror lagging behind makes the fetch fail, although the main URL
  has the content; the URL is not tried (C132_available_refuted, C132_commit_available_refuted).
* Retries: an initial backoff larger than the maximal one is not limited for the first pause (C133_first_pause_refuted); with large values doubling wraps to no pause at all
  (C133_wrapped_pause_refuted); 4294967295 attempts, which is what "max attempts": -1 in an rc file gives, never end, as the counter wraps (C133_calls_refuted).
* Rules: that the "target" of an anonymous field is a target or implicit field of the rule (the documentation, doc/concepts/anonymous-targets.md, asks for a target field) is checked neither when the rule is read nor later; with a misspelled name the field silently has no
  targets (C135_anonymous_refuted). A field listed twice in one list is accepted (C135_twice_refuted).
* Archives: the results of archive_write_header, archive_write_data and archive_write_close are ignored. If, say, the disk is full, "just install-cas --archive" reports success for a truncated
  archive (C136_complete_refuted). If an object is missing, the incomplete archive is left behind (C136_nothing_left_refuted).
* Object ids on the command line: an unknown type is taken as file, a size that is no number as 0, a negative one as almost 2^64 (C137_checked_refuted). A hash in brackets without size and
  type ("[hash]") is refused, as the bracket becomes part of the hash (from C137_accepted).
* Definitions of expressions: other than for rules and targets, keys nothing is known about (say "var" for "vars") are not warned about (noted while modelling C139; no theorem).
* Files with definitions: the name of a module is checked to stay inside the repository, the configured name of the file is not, so "../TARGETS" or an absolute name is read from outside
  (C140_file_names_refuted). For the root module the end iterator of the empty path is dereferenced; libstdc++ yields the empty path.
* Addresses: std::stoi throws std::out_of_range for numbers from 2^31 on, which ParsePort(std::string const&) does not catch although it is noexcept, so "host:99999999999" ends the program
  with std::terminate instead of an error (C141_reported_refuted). As the serve service parses the dispatch list sent by a client with the same function
  (serve_service/target.cpp:132), a client can end the service (C141_dispatch_reported_refuted). Text behind the number is ignored ("host:80:8980"; C141_nothing_else_refuted), IPv6
  addresses in brackets are refused. Platform properties with empty value are refused and values are cut at the first newline (C141_property_refuted).
