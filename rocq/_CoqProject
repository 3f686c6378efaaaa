-Q theories Verif
theories/PackModel.v
theories/PackSpec.v
theories/PackProofs.v
theories/CoreModel.v
theories/CoreProofs.v
theories/RefProofs.v
theories/ValueProps.v
theories/GcModel.v
theories/GcInv.v
theories/GcStep.v
theories/GcAlloc.v
theories/GcFrames.v
theories/GcSink.v
theories/GcPop.v
theories/GcClient.v
theories/GcProps.v
theories/GcAcct.v
theories/GcFull.v
theories/GcCopy.v
theories/GcMeaning.v
theories/StackModel.v
theories/StackProps.v
theories/ListModel.v
theories/ListProofs.v
theories/BaseModel.v
theories/BaseProps.v
theories/PathModel.v
theories/PathProps.v
theories/LoadModel.v
theories/LoadProps.v
theories/FuncModel.v
theories/FuncProps.v
theories/CodeModel.v
theories/CodeProps.v
theories/CompileModel.v
theories/CompileEval.v
theories/CompileStatic.v
theories/CompileRel.v
theories/CompileDyn.v
theories/CompileCalls.v
theories/TcSpec.v
theories/TcRel.v
theories/TcComplete.v
theories/TcCalls.v
theories/TcSound.v
theories/TcProps.v
theories/CompileSlots.v
theories/CompileProfile.v
theories/LinkModel.v
theories/LinkProps.v
theories/ArgModel.v
theories/ArgProps.v
theories/KindModel.v
theories/KindProps.v
theories/KindHeap.v
theories/ProfileModel.v
theories/ProfileSpec.v
theories/ProfileStack.v
theories/ProfileProps.v
theories/ProfileThread.v
theories/ProfileRun.v
theories/ProfileReport.v
theories/TypeHeapModel.v
theories/TypeHeapInv.v
theories/TypeHeapSem.v
theories/TypeHeapStep.v
theories/TypeHeapCycle.v
theories/TypeHeapGc.v
theories/TypeHeapOps.v
theories/TypeHeapStore.v
theories/TypeHeapSpec.v
theories/TypeHeapProps.v
theories/UnusedModel.v
theories/UnusedSpec.v
theories/UnusedProps.v
theories/TypeModel.v
theories/TypeSpec.v
theories/TypeProps.v
theories/TypeExamples.v
theories/CheckModel.v
theories/CheckScope.v
theories/CheckScoped.v
theories/CheckSpec.v
theories/CheckProps.v
theories/CheckTyping.v
theories/CheckSafe.v
theories/CheckRun.v
theories/CheckGrow.v
theories/CheckOps.v
theories/CheckLet.v
theories/CheckSafeSpec.v
theories/CheckTyped.v
theories/CheckSound.v
theories/CheckProgram.v
theories/FuncSim.v
theories/GenModel.v
theories/GenLabel.v
theories/GenCode.v
theories/GenRun.v
theories/GenProg.v
theories/GenProps.v
theories/GenValid.v
theories/GenExample.v
theories/GenText.v
theories/GenSafe.v
theories/ResolveSpec.v
theories/ResolveScope.v
theories/ResolveStore.v
theories/ResolveProps.v
theories/AsmModel.v
theories/AsmSearch.v
theories/AsmRun.v
theories/AsmCode.v
theories/AsmProg.v
theories/AsmSafe.v
theories/AsmExample.v
theories/AsmValid.v
theories/AsmEncode.v
theories/FbldModel.v
theories/FbldSpec.v
theories/FbldMem.v
theories/FbldSafe.v
theories/FbldOps.v
theories/FbldMemProps.v
theories/FbldSim.v
theories/FbldSim2.v
theories/FbldSim3.v
theories/FbldSim4.v
theories/FbldSim5.v
theories/FbldProps.v
theories/FbldParse.v
theories/FbldLex.v
theories/FbldParseSim.v
theories/FbldParseTot.v
theories/FbldParseMono.v
theories/FbldParseSim2.v
theories/FbldGrammar.v
theories/FbldRound.v
theories/FbldIndent.v
theories/FbldBlocks.v
theories/FbldParseProps.v
theories/FbldMain.v
theories/TcMem.v
