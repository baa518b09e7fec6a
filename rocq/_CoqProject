-Q theories Verif
theories/Common/Result.v
theories/Common/Arr.v
theories/Common/Ord.v
theories/Common/Tac.v
theories/Sort/Model.v
theories/Sort/InsProofs.v
theories/Sort/HeapProofs.v
theories/Sort/PdqProofs.v
theories/Sort/QModel.v
theories/Sort/QProofs.v
theories/Sort/TModel.v
theories/Sort/TProofs.v
theories/Sort/Dispatch.v
theories/Sort/DispatchProofs.v
theories/Sort/Properties.v
theories/Common/Int64.v
theories/List/SliceSpec.v
theories/List/SliceModel.v
theories/List/SliceProofs.v
theories/List/ListModel.v
theories/List/ListSpec.v
theories/List/ListProofs.v
theories/List/ListSliceProofs.v
theories/List/ListRun.v
theories/List/FusionModel.v
theories/List/FusionProofs.v
theories/List/Properties.v
theories/Dict/Model.v
theories/Dict/Spec.v
theories/Dict/Flags.v
theories/Dict/Cells.v
theories/Dict/Proofs.v
theories/Dict/OpProofs.v
theories/Dict/Run.v
theories/Dict/LastWrite.v
theories/Dict/SetModel.v
theories/Dict/SetSpec.v
theories/Dict/SetProofs.v
theories/Dict/IterModel.v
theories/Dict/IterProofs.v
theories/Dict/Properties.v
theories/Deque/Model.v
theories/Deque/Spec.v
theories/Deque/Proofs.v
theories/Deque/Properties.v
theories/Common/Stable.v
theories/Heap/Model.v
theories/Heap/Spec.v
theories/Heap/Proofs.v
theories/Heap/BestProofs.v
theories/Heap/MergeProofs.v
theories/Heap/BisectProofs.v
theories/Heap/Properties.v
theories/Ir/Num.v
theories/Ir/NumProofs.v
theories/Ir/FloatProofs.v
theories/Ir/Sem.v
theories/Ir/SemProofs.v
theories/Ir/Fold.v
theories/Ir/PassProofs.v
theories/Ir/FoldProofs.v
theories/Ir/FoldProperties.v
theories/Ir/Effects.v
theories/Ir/EffectProofs.v
theories/Ir/Canon.v
theories/Ir/CanonProofs.v
theories/Ir/Dce.v
theories/Ir/DceProofs.v
theories/Ir/CleanupProperties.v
theories/Flow/Graph.v
theories/Flow/Dom.v
theories/Flow/DomProofs.v
theories/Flow/DomProperties.v
theories/Flow/BitSet.v
theories/Flow/BitSetProofs.v
theories/Flow/Reach.v
theories/Flow/ReachProofs.v
theories/Flow/ReachProperties.v
theories/Flow/Cfg.v
theories/Flow/CfgSpec.v
theories/Flow/CfgFrame.v
theories/Flow/CfgProofs.v
theories/Flow/CfgCover.v
theories/Flow/CfgProperties.v
theories/Parser/Escape.v
theories/Parser/EscapeProofs.v
theories/Parser/EscapeProperties.v
theories/Parser/Mro.v
theories/Parser/MroProofs.v
theories/Parser/MroProperties.v
theories/Pass/Manager.v
theories/Pass/ManagerProofs.v
theories/Pass/ManagerProperties.v
theories/Parser/CallArgs.v
theories/Parser/CallArgsSpec.v
theories/Parser/CallArgsProofs.v
theories/Parser/CallArgsProperties.v
theories/Types/Unify.v
theories/Types/UnifySpec.v
theories/Types/UnifyProofs.v
theories/Types/UnifySound.v
theories/Types/UnifyTerm.v
theories/Types/GenProofs.v
theories/Types/UnifyProperties.v
theories/Datetime/Model.v
theories/Datetime/Spec.v
theories/Datetime/Proofs.v
theories/Datetime/Arith.v
theories/Datetime/Instant.v
theories/Datetime/Text.v
theories/Datetime/Properties.v
theories/Async/Model.v
theories/Async/QueueProofs.v
theories/Async/TimerProofs.v
theories/Async/Spec.v
theories/Async/InvProofs.v
theories/Async/StepProofs.v
theories/Async/HistProofs.v
theories/Async/TaskProofs.v
theories/Async/GatherProofs.v
theories/Async/Properties.v
theories/Async/TaskProperties.v
theories/Async/GatherProperties.v
theories/Str/Model.v
theories/Str/Spec.v
theories/Str/Basic.v
theories/Str/FindProofs.v
theories/Str/SplitProofs.v
theories/Str/WordProofs.v
theories/Str/ReplaceProofs.v
theories/Str/SearchProofs.v
theories/Str/MiscProofs.v
theories/Str/Properties.v
theories/Itertools/CombModel.v
theories/Itertools/CombSpec.v
theories/Itertools/CombProofs.v
theories/Itertools/PermProofs.v
theories/Itertools/CountProofs.v
theories/Itertools/Properties.v
theories/Itertools/StreamModel.v
theories/Itertools/StreamSpec.v
theories/Itertools/StreamProofs.v
theories/Itertools/ZipProofs.v
theories/Itertools/StreamProperties.v
theories/Exc/Spec.v
theories/Exc/Model.v
theories/Exc/Proofs.v
theories/Exc/Labels.v
theories/Exc/Eval.v
theories/Exc/Diverge.v
theories/Exc/Refuted.v
theories/Exc/Properties.v
theories/Scope/Spec.v
theories/Scope/Model.v
theories/Scope/Events.v
theories/Scope/Flow.v
theories/Scope/Sim.v
theories/Scope/Link.v
theories/Scope/Path.v
theories/Scope/Items.v
theories/Scope/Pass.v
theories/Scope/Trail.v
theories/Scope/Final.v
theories/Scope/Total.v
theories/Scope/Properties.v
theories/Nd/Spec.v
theories/Nd/Model.v
theories/Nd/Grid.v
theories/Nd/Copy.v
theories/Nd/Reshape.v
theories/Nd/Views.v
theories/Nd/Properties.v
theories/Nd/IndexModel.v
theories/Nd/Index.v
theories/Nd/IndexProperties.v
theories/Nd/LoopModel.v
theories/Nd/Loop.v
theories/Nd/LoopAll.v
theories/Nd/LoopProperties.v
theories/Nd/UfuncModel.v
theories/Nd/Ufunc.v
theories/Nd/UfuncProperties.v
theories/Nd/MaskModel.v
theories/Nd/Mask.v
theories/Nd/MaskProperties.v
theories/Par/LoopSpec.v
theories/Par/LoopModel.v
theories/Par/Loop.v
theories/Par/LoopTeam.v
theories/Par/LoopRuntime.v
theories/Par/LoopCollapse.v
theories/Par/LoopProperties.v
theories/Par/ReductionSpec.v
theories/Par/ReductionModel.v
theories/Par/Reduction.v
theories/Par/ReductionProperties.v
theories/Desugar/DesugarSpec.v
theories/Desugar/DesugarModel.v
theories/Desugar/DesugarPat.v
theories/Desugar/DesugarSim.v
theories/Desugar/DesugarProperties.v
theories/Heap/SortedListModel.v
theories/Heap/SortedListProofs.v
theories/Heap/SortedListProperties.v
theories/Pickle/PickleModel.v
theories/Pickle/PickleSpec.v
theories/Pickle/PickleProofs.v
theories/Pickle/PickleProperties.v
theories/Pickle/NdPickleModel.v
theories/Pickle/NdPickleProofs.v
theories/Pickle/NdPickleProperties.v
theories/Nd/ElideModel.v
theories/Nd/ElideSpec.v
theories/Nd/Elide.v
theories/Nd/ElideProperties.v
theories/Gen/GenModel.v
theories/Gen/GenSpec.v
theories/Gen/GenProofs.v
theories/Gen/GenProperties.v
theories/Flow/Forward.v
theories/Flow/ForwardSpec.v
theories/Flow/ForwardProofs.v
theories/Flow/ForwardProperties.v
theories/Nd/FusionModel.v
theories/Nd/FusionSpec.v
theories/Nd/Fusion.v
theories/Nd/FusionProofs.v
theories/Nd/FusionProperties.v
theories/Loops/ForModel.v
theories/Loops/ForSpec.v
theories/Loops/ForProofs.v
theories/Loops/ForProperties.v
theories/Dict/CounterModel.v
theories/Dict/CounterSpec.v
theories/Dict/CounterProofs.v
theories/Dict/CounterProperties.v
theories/Random/Model.v
theories/Random/Spec.v
theories/Random/TwisterProofs.v
theories/Random/Proofs.v
theories/Random/Properties.v
theories/Num/ArithModel.v
theories/Num/ArithSpec.v
theories/Num/ArithProofs.v
theories/Num/ArithProperties.v
theories/Num/TextModel.v
theories/Num/TextSpec.v
theories/Num/TextProofs.v
theories/Num/TextProperties.v
theories/Mods/Spec.v
theories/Mods/Model.v
theories/Mods/Proofs.v
theories/Mods/Properties.v
theories/Files/Spec.v
theories/Files/Model.v
theories/Files/Proofs.v
theories/Files/Properties.v
theories/Re/Spec.v
theories/Re/Model.v
theories/Re/Proofs.v
theories/Re/Properties.v
theories/Re/TemplateSpec.v
theories/Re/TemplateModel.v
theories/Re/TemplateProofs.v
theories/Re/TemplateProperties.v
theories/Getopt/Spec.v
theories/Getopt/Model.v
theories/Getopt/Proofs.v
theories/Getopt/Properties.v
theories/Fuse/Spec.v
theories/Fuse/Model.v
theories/Fuse/Proofs.v
theories/Fuse/Properties.v
theories/Unpack/Spec.v
theories/Unpack/Model.v
theories/Unpack/Proofs.v
theories/Unpack/Properties.v
