-Q theories Verif
theories/Base.v
theories/ListLib.v
theories/NumModel.v
theories/NumProofs.v
theories/NumProps.v
theories/StrModel.v
theories/StrProofs.v
theories/StrProps.v
theories/TrieModel.v
theories/TrieProofs.v
theories/TrieProps.v
theories/HeapModel.v
theories/HeapProps.v
theories/GcModel.v
theories/GcProofs.v
theories/GcInv.v
theories/GcLive.v
theories/GcTerm.v
theories/GcProps.v
theories/AllocModel.v
theories/AllocProofs.v
theories/AllocInv.v
theories/AllocFlip.v
theories/AllocProps.v
theories/LargeModel.v
theories/LargeProofs.v
theories/LargeProps.v
theories/ReaderModel.v
theories/ReaderSpec.v
theories/ReaderProofs.v
theories/ReaderTerm.v
theories/ReaderProps.v
theories/VmModel.v
theories/VmSpec.v
theories/VmProofs.v
theories/VmSim.v
theories/VmExec.v
theories/VmProps.v
theories/LibModel.v
theories/LibProofs.v
theories/LibProps.v
theories/MbModel.v
theories/MbProofs.v
theories/MbProps.v
theories/ChanModel.v
theories/ChanProps.v
theories/PkgModel.v
theories/PkgProps.v
theories/SxmlModel.v
theories/SxmlProps.v
theories/EmitModel.v
theories/EmitProps.v
theories/CoreSpec.v
theories/TocModel.v
theories/TocSem.v
theories/CoreProofs.v
theories/TocClosure.v
theories/TocTail.v
theories/TocLive.v
theories/TocParse.v
theories/TocParseSim.v
theories/TocMach.v
theories/TocCollect.v
theories/TocErase.v
theories/TocGood.v
theories/TocScope.v
theories/TocWhole.v
theories/TocFrames.v
theories/TocFrameRun.v
theories/TocProps.v
theories/EvalRel.v
theories/NsSpec.v
theories/NsModel.v
theories/NsProofs.v
theories/NsProps.v
theories/MacroModel.v
theories/SurfSpec.v
theories/MacroExp.v
theories/MacroProofs.v
theories/MacroScope.v
theories/MacroProps.v
theories/PevalModel.v
theories/PevalSpec.v
theories/PevalRel.v
theories/PevalSim.v
theories/PevalProofs.v
theories/PevalProps.v
theories/KanSpec.v
theories/KanModel.v
theories/KanProps.v
theories/PegSpec.v
theories/PegModel.v
theories/PegProps.v
theories/ReplSpec.v
theories/ReplModel.v
theories/ReplProofs.v
theories/ReplProps.v
theories/InferSpec.v
theories/InferModel.v
theories/InferProofs.v
theories/InferSound.v
theories/InferProps.v
theories/NetModel.v
theories/NetSpec.v
theories/NetProofs.v
theories/NetLoop.v
theories/NetProps.v
theories/TraceModel.v
theories/TraceSpec.v
theories/TraceProofs.v
theories/TraceProps.v
theories/RecSpec.v
theories/RecModel.v
theories/RecProofs.v
theories/RecProps.v
theories/ChoiceModel.v
theories/ChoiceProps.v
theories/LoopModel.v
theories/LoopProofs.v
theories/LoopProps.v
theories/IoSpec.v
theories/IoModel.v
theories/IoProofs.v
theories/IoProps.v
theories/CSpec.v
theories/GenModel.v
theories/CParse.v
theories/GenCond.v
theories/GenEx.v
theories/GenLex.v
theories/GenTree.v
theories/GenSem.v
theories/GenRun.v
theories/GenFile.v
theories/GenGood.v
theories/GenSrc.v
theories/GenSource.v
theories/GenProps.v
theories/PreSpec.v
theories/PreModel.v
theories/PreProofs.v
theories/PreProps.v
theories/TocTotal.v
theories/TocTable.v
theories/TotalProps.v
theories/FineCore.v
theories/FineNs.v
theories/FineSpec.v
theories/FineSurf.v
theories/CalmSpec.v
theories/CalmProofs.v
theories/FineProps.v
theories/HookModel.v
theories/HookProofs.v
theories/HookProps.v
theories/ScriptSpec.v
theories/ScriptModel.v
theories/ScriptProofs.v
theories/ScriptProps.v
theories/MonadModel.v
theories/MonadProofs.v
theories/MonadProps.v
theories/GcVecModel.v
theories/GcVecProps.v
theories/VecModel.v
theories/VecSpec.v
theories/VecProofs.v
theories/VecProps.v
theories/SockModel.v
theories/SockSpec.v
theories/SockProps.v
theories/JsonModel.v
theories/JsonSpec.v
theories/JsonProps.v
theories/SchedModel.v
theories/SchedSpec.v
theories/SchedProps.v
theories/RootsModel.v
theories/RootsSpec.v
theories/RootsProofs.v
theories/RootsProps.v
theories/UmacModel.v
theories/UmacSpec.v
theories/UmacProps.v
theories/RegModel.v
theories/RegSpec.v
theories/RegProps.v
theories/MdModel.v
theories/MdSpec.v
theories/MdProofs.v
theories/MdProps.v
theories/PaceModel.v
theories/PaceProps.v
theories/LoadModel.v
theories/LoadProps.v
theories/PegMacModel.v
theories/PegMacProps.v
theories/TrieRaceModel.v
theories/TrieRaceProps.v
theories/ApiModel.v
theories/ApiProps.v
theories/MultiModel.v
theories/MultiProps.v
