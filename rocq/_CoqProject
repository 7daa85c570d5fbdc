-Q theories Verif
theories/AddCas/AddCasProps.v
theories/AddCas/Complete.v
theories/AddCas/Examples.v
theories/AddCas/Model.v
theories/AddCas/Modes.v
theories/AddCas/Proofs.v
theories/AddCas/Sound.v
theories/AddCas/Spec.v
theories/Analysis/ActionIdProps.v
theories/Analysis/ActionShape.v
theories/Analysis/Buildable.v
theories/Analysis/BuildableProps.v
theories/Analysis/ConfigProps.v
theories/Analysis/Crash.v
theories/Analysis/Created.v
theories/Analysis/Examples.v
theories/Analysis/Honest.v
theories/Analysis/HonestSpec.v
theories/Analysis/Model.v
theories/Analysis/Proofs.v
theories/Analysis/Spec.v
theories/Analysis/Stage.v
theories/Analysis/StageAll.v
theories/Analysis/StageExamples.v
theories/Analysis/StageProofs.v
theories/Analysis/StageProps.v
theories/Analysis/StageSpec.v
theories/Analysis/StageTargets.v
theories/Analysis/Taint.v
theories/Analysis/TaintProps.v
theories/Archive/ArchiveProps.v
theories/Archive/Model.v
theories/Archive/Proofs.v
theories/Archive/Spec.v
theories/Async/Cycle.v
theories/Async/Lists.v
theories/Async/Map.v
theories/Async/MapAct.v
theories/Async/MapCount.v
theories/Async/MapInv.v
theories/Async/MapLive.v
theories/Async/MapQuiet.v
theories/Async/MapSpec.v
theories/Async/Props.v
theories/Async/TaskProps.v
theories/Async/Tasks.v
theories/Async/TasksInv.v
theories/Async/TasksLive.v
theories/Async/TasksStep.v
theories/Auth/AuthProps.v
theories/Auth/Model.v
theories/Chunker/Model.v
theories/Chunker/Proofs.v
theories/Chunker/Props.v
theories/Chunker/Spec.v
theories/Common/Strs.v
theories/Computed/ComputedProps.v
theories/Computed/Main.v
theories/Computed/Model.v
theories/Computed/Paths.v
theories/Computed/Proofs.v
theories/Computed/Spec.v
theories/Dag/Graph.v
theories/Dag/GraphAdd.v
theories/Dag/GraphInv.v
theories/Dag/GraphProps.v
theories/Dag/Traverse.v
theories/Dag/TraverseEnd.v
theories/Dag/TraverseInv.v
theories/Dag/TraverseProps.v
theories/Describe/DescribeProps.v
theories/Describe/Liberal.v
theories/Describe/LiberalProps.v
theories/Describe/Model.v
theories/Describe/Proofs.v
theories/Describe/Spec.v
theories/Executor/Build.v
theories/Executor/BuildProofs.v
theories/Executor/BuildProps.v
theories/Executor/BuildSpec.v
theories/Executor/Local.v
theories/Executor/LocalProofs.v
theories/Executor/LocalProps.v
theories/Executor/LocalSpec.v
theories/Executor/Process.v
theories/Executor/Rebase.v
theories/Executor/Rebuild.v
theories/Executor/RebuildProps.v
theories/Executor/Wire.v
theories/Executor/WireProofs.v
theories/Expr/CallProofs.v
theories/Expr/DumpProofs.v
theories/Expr/Eval.v
theories/Expr/EvalProofs.v
theories/Expr/HashProofs.v
theories/Expr/HashSpec.v
theories/Expr/Json.v
theories/Expr/JsonSpec.v
theories/Expr/Model.v
theories/Expr/OpsProofs.v
theories/Expr/OpsSpec.v
theories/Expr/Props.v
theories/Expr/Spec.v
theories/Expr/Witness.v
theories/Fetch/Doing.v
theories/Fetch/Facts.v
theories/Fetch/FetchProps.v
theories/Fetch/Model.v
theories/Fetch/Noted.v
theories/Fetch/Proofs.v
theories/Fetch/Safety.v
theories/Fetch/Spec.v
theories/Fetch/Witness.v
theories/Fetch/World.v
theories/Functions/FunctionsProps.v
theories/Functions/Load.v
theories/Functions/LoadProps.v
theories/Functions/Model.v
theories/GitConfig/GitConfigProps.v
theories/GitConfig/Model.v
theories/GitConfig/Noproxy.v
theories/GitConfig/Proofs.v
theories/GitConfig/Spec.v
theories/GitTree/Ids.v
theories/GitTree/Model.v
theories/GitTree/Proofs.v
theories/GitTree/Props.v
theories/GitTree/Spec.v
theories/Hex/Model.v
theories/Hex/Proofs.v
theories/Hex/Props.v
theories/Hex/Spec.v
theories/Incremental/Again.v
theories/Incremental/Backed.v
theories/Incremental/IncrementalProps.v
theories/Incremental/Model.v
theories/Incremental/Proofs.v
theories/Incremental/Spec.v
theories/LinkedMap/Extra.v
theories/LinkedMap/Model.v
theories/LinkedMap/Proofs.v
theories/LinkedMap/Props.v
theories/LinkedMap/Spec.v
theories/Mirrors/MirrorsProps.v
theories/Mirrors/Model.v
theories/Mirrors/Proofs.v
theories/Mirrors/Spec.v
theories/Names/Model.v
theories/Names/NamesProps.v
theories/Names/Proofs.v
theories/Names/Spec.v
theories/Path/Model.v
theories/Path/Proofs.v
theories/Path/Proofs2.v
theories/Path/Props.v
theories/Path/Spec.v
theories/Places/Model.v
theories/Places/PlacesProps.v
theories/Rc/Launch.v
theories/Rc/LaunchProofs.v
theories/Rc/LaunchProps.v
theories/Rc/LaunchSpec.v
theories/Rc/Model.v
theories/Rc/Proofs.v
theories/Rc/RcProps.v
theories/Rc/Spec.v
theories/Rehash/Directory.v
theories/Rehash/DirectoryProofs.v
theories/Rehash/Examples.v
theories/Rehash/Frame.v
theories/Rehash/Model.v
theories/Rehash/Nodes.v
theories/Rehash/RehashProps.v
theories/Rehash/Spec.v
theories/Rehash/System.v
theories/Rehash/ToCompatible.v
theories/Rehash/ToNative.v
theories/Remote/Address.v
theories/Remote/AddressProps.v
theories/Remote/Backend.v
theories/Remote/BackendProps.v
theories/Remote/Client.v
theories/Remote/ClientMore.v
theories/Remote/ClientProofs.v
theories/Remote/ClientProps.v
theories/Remote/ClientSpec.v
theories/Remote/Config.v
theories/Remote/ConfigProps.v
theories/Remote/Names.v
theories/Remote/NamesProofs.v
theories/Remote/NamesSpec.v
theories/Remote/Operations.v
theories/Remote/OperationsProofs.v
theories/Remote/OperationsProps.v
theories/Remote/OperationsSpec.v
theories/Remote/Server.v
theories/Remote/ServerMore.v
theories/Remote/ServerProofs.v
theories/Remote/ServerProps.v
theories/Remote/ServerSpec.v
theories/Remote/Stream.v
theories/Remote/StreamProofs.v
theories/Remote/StreamProps.v
theories/Remote/StreamSpec.v
theories/Repo/Bisim.v
theories/Repo/BisimProofs.v
theories/Repo/KeyCache.v
theories/Repo/KeyCacheProofs.v
theories/Repo/Keys.v
theories/Repo/KeysProofs.v
theories/Repo/KeysSpec.v
theories/Repo/Minimizer.v
theories/Repo/MinimizerEnd.v
theories/Repo/MinimizerProofs.v
theories/Repo/RepoProps.v
theories/Result/Distinct.v
theories/Result/Entry.v
theories/Result/Model.v
theories/Result/Proofs.v
theories/Result/ReadProofs.v
theories/Result/ResultProps.v
theories/Result/RoundTrip.v
theories/Result/Spec.v
theories/Roots/Answers.v
theories/Roots/Files.v
theories/Roots/Histories.v
theories/Roots/Instances.v
theories/Roots/Lookups.v
theories/Roots/Markers.v
theories/Roots/Model.v
theories/Roots/ModuleFiles.v
theories/Roots/ModuleFilesProps.v
theories/Roots/Paths.v
theories/Roots/Questions.v
theories/Roots/References.v
theories/Roots/RootsProps.v
theories/Roots/SameProps.v
theories/Roots/Spec.v
theories/Rules/Model.v
theories/Rules/Proofs.v
theories/Rules/RulesProps.v
theories/Rules/Spec.v
theories/Service/Backed.v
theories/Service/Build.v
theories/Service/BuildProofs.v
theories/Service/Messages.v
theories/Service/MessagesProofs.v
theories/Service/Model.v
theories/Service/Proofs.v
theories/Service/ServiceProps.v
theories/Service/Spec.v
theories/Setup/Chains.v
theories/Setup/Examples.v
theories/Setup/Fill.v
theories/Setup/Just.v
theories/Setup/Model.v
theories/Setup/SetupProps.v
theories/Setup/Spec.v
theories/Setup/Succeeds.v
theories/Staging/Base.v
theories/Staging/Cas.v
theories/Staging/CasProofs.v
theories/Staging/Collect.v
theories/Staging/CollectProofs.v
theories/Staging/Examples.v
theories/Staging/FileSystem.v
theories/Staging/Inputs.v
theories/Staging/Install.v
theories/Staging/Leafs.v
theories/Staging/Model.v
theories/Staging/Retrieve.v
theories/Staging/Round.v
theories/Staging/Spec.v
theories/Staging/StagingProps.v
theories/Staging/Structure.v
theories/Storage/Addr.v
theories/Storage/Examples.v
theories/Storage/Facts.v
theories/Storage/Gc.v
theories/Storage/Hoare.v
theories/Storage/Inv.v
theories/Storage/Model.v
theories/Storage/Props.v
theories/Storage/Run.v
theories/Storage/Spec.v
theories/Storage/System.v
theories/Storage/Uplink.v
theories/Symlinks/Complete.v
theories/Symlinks/Eval.v
theories/Symlinks/Examples.v
theories/Symlinks/Follow.v
theories/Symlinks/IgnoreMode.v
theories/Symlinks/Model.v
theories/Symlinks/PartialMode.v
theories/Symlinks/Paths.v
theories/Symlinks/Posix.v
theories/Symlinks/Runs.v
theories/Symlinks/Spec.v
theories/Symlinks/SymlinksProps.v
theories/Symlinks/View.v
theories/Tcache/Examples.v
theories/Tcache/Model.v
theories/Tcache/Proofs.v
theories/Tcache/Provenance.v
theories/Tcache/TcacheProps.v
theories/Traverser/Closure.v
theories/Traverser/Examples.v
theories/Traverser/Gather.v
theories/Traverser/GraphFacts.v
theories/Traverser/IdentifyProps.v
theories/Traverser/Model.v
theories/Traverser/Proofs.v
theories/Traverser/Spec.v
theories/Traverser/TraverserProps.v
theories/Traverser/Values.v
theories/TreeOps/Merkle.v
theories/TreeOps/Model.v
theories/TreeOps/Overlay.v
theories/TreeOps/Proofs.v
theories/TreeOps/Props.v
theories/TreeOps/Spec.v
theories/TreeOps/Structure.v
theories/TreeOps/Witness.v
theories/Upload/Build.v
theories/Upload/Examples.v
theories/Upload/Logic.v
theories/Upload/Model.v
theories/Upload/Props.v
theories/Upload/Put.v
theories/Upload/Root.v
theories/Upload/Spec.v
theories/Upload/Transfer.v
