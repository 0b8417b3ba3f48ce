-Q theories Verif
theories/Machine.v
theories/MachineFacts.v
theories/MemModel.v
theories/MemSpec.v
theories/MemProofs.v
theories/MemProofs2.v
theories/MemTop.v
theories/Props_Mem.v
theories/LayoutModel.v
theories/LayoutSpec.v
theories/LayoutFacts.v
theories/LayoutProofs.v
theories/LayoutTop.v
theories/LayoutTop2.v
theories/LayoutTop3.v
theories/LayoutTop4.v
theories/LayoutTop5.v
theories/Props_Layout.v
theories/ThreadModel.v
theories/ThreadSpec.v
theories/ThreadInv.v
theories/ThreadPres.v
theories/ThreadPres2.v
theories/ThreadPres3.v
theories/ThreadPres4.v
theories/ThreadTop.v
theories/ThreadTop2.v
theories/ThreadSim.v
theories/Props_Thread.v
theories/DtorsModel.v
theories/DtorsSpec.v
theories/DtorsFacts.v
theories/DtorsInv.v
theories/DtorsPres.v
theories/DtorsTop.v
theories/DtorsTop2.v
theories/DtorsTop3.v
theories/DtorsTop4.v
theories/Props_Dtors.v
theories/RelocModel.v
theories/RelocSpec.v
theories/RelocFacts.v
theories/RelocProofs.v
theories/RelocTop.v
theories/RelocMono.v
theories/RelocEx.v
theories/Props_Reloc.v
theories/StartModel.v
theories/StartSpec.v
theories/StartProofs.v
theories/StartTop.v
theories/Props_Start.v
theories/AsmModel.v
theories/AsmSpec.v
theories/AsmProofs.v
theories/AsmProofs2.v
theories/Props_Asm.v
theories/SignalModel.v
theories/SignalSpec.v
theories/Props_Signal.v
theories/LibcModel.v
theories/LibcSpec.v
theories/LibcProofs.v
theories/Props_Libc.v
theories/ByteModel.v
theories/ByteSpec.v
theories/ByteProofs.v
theories/ByteSim.v
theories/Props_Byte.v
theories/CurrentModel.v
theories/Props_Current.v
theories/Props_Boot.v
theories/Props_Boot2.v
theories/CloneModel.v
theories/CloneSpec.v
theories/Props_Clone.v
theories/ProcModel.v
theories/Props_Proc.v
theories/EntryModel.v
theories/Props_Entry.v
theories/AttrModel.v
theories/Props_Attr.v
theories/SyncModel.v
theories/SyncFacts.v
theories/SyncInv.v
theories/SyncTop.v
theories/Props_Sync.v
theories/ThreadPhase.v
theories/Props_Phase.v
theories/BytePhase.v
theories/Props_BytePhase.v
theories/LogModel.v
theories/Props_Log.v
theories/Props_Live.v
theories/FairSpec.v
theories/FairCore.v
theories/Props_Fair.v
theories/SeenSpec.v
theories/Props_Seen.v
theories/ExitFairSpec.v
theories/Props_ExitFair.v
theories/ByteFairSpec.v
theories/Props_ByteFair.v
theories/ScriptModel.v
theories/ScriptSpec.v
theories/ScriptProofs.v
theories/ScriptChain.v
theories/ScriptTotal.v
theories/ScriptDet.v
theories/Props_Script.v
theories/ScriptFairSpec.v
theories/ScriptTick.v
theories/ScriptPc.v
theories/ScriptFair.v
theories/ScriptStuck.v
theories/Props_ScriptFair.v
theories/ForkModel.v
theories/ForkSpec.v
theories/ForkProofs.v
theories/ForkTidy.v
theories/ForkPlay.v
theories/Props_Fork.v
theories/ForkFairSpec.v
theories/ForkPc.v
theories/ForkTick.v
theories/ForkFair.v
theories/ForkStuck.v
theories/Props_ForkFair.v
theories/UnwindSpec.v
theories/UnwindModel.v
theories/Props_Unwind.v
theories/RelocFault.v
theories/RelocFaultSpec.v
theories/RelocFaultProofs.v
theories/RelocFaultTop.v
theories/Props_RelocFault.v
theories/StartFault.v
theories/StartFaultSpec.v
theories/StartFaultProofs.v
theories/Props_StartFault.v
theories/DLogModel.v
theories/DLogSpec.v
theories/DLogProofs.v
theories/DLogConv.v
theories/DLogTell.v
theories/DLogOnce.v
theories/Props_DLog.v
theories/PanicModel.v
theories/PanicSpec.v
theories/PanicInv.v
theories/PanicTop.v
theories/PanicRun.v
theories/PanicOrder.v
theories/Props_Panic.v
theories/LogInitModel.v
theories/LogInitSpec.v
theories/LogInitProofs.v
theories/Props_LogInit.v
theories/Props_StartCheck.v
theories/LayoutRel.v
theories/Props_LayoutRel.v
theories/PexitModel.v
theories/PexitSpec.v
theories/PexitProofs.v
theories/PexitAll.v
theories/PexitMain.v
theories/PexitTidy.v
theories/PexitPlay.v
theories/Props_Pexit.v
theories/PexitPc.v
theories/PexitTick.v
theories/PexitFairSpec.v
theories/PexitFair.v
theories/PexitStuck.v
theories/Props_PexitFair.v
theories/Props_ElfAbi.v
