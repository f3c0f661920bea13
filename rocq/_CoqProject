-Q theories Verif
theories/AATree.v
theories/AATreeSpec.v
theories/AATreeProofs.v
theories/AATreeBalance.v
theories/AATreeHist.v
theories/Props_AATree.v
theories/Util.v
theories/Runtime.v
theories/SchedInv.v
theories/StepInv.v
theories/StackShape.v
theories/RuntimeSpec.v
theories/TraceInv.v
theories/ReadyQueue.v
theories/Immediate.v
theories/Prims.v
theories/StaticInv.v
theories/Footprint.v
theories/QueueInv.v
theories/ChanShape.v
theories/OwnInv.v
theories/WaitInv.v
theories/DeadlineInv.v
theories/CallInv.v
theories/CountInv.v
theories/TraceStep.v
theories/Wake.v
theories/Awake.v
theories/SpecInv.v
theories/AllInv.v
theories/PausedInv.v
theories/DldInv.v
theories/ResultInv.v
theories/JoinInv.v
theories/PairedInv.v
theories/TimeoutInv.v
theories/WaiterInv.v
theories/BlockSpec.v
theories/JoinWake.v
theories/CancelInv.v
theories/CancelOrd.v
theories/MutexSpec.v
theories/MutexW.v
theories/MutexEff.v
theories/MutexTok.v
theories/MutexRt.v
theories/MutexStep.v
theories/MutexInv.v
theories/CancelRes.v
theories/MutexLow.v
theories/MutexLeak.v
theories/MutexOrd.v
theories/OneStep.v
theories/Scripts.v
theories/ScriptsP.v
theories/Props_Sched.v
theories/SchedTimeout.v
theories/Props_Time.v
theories/Rand.v
theories/Props_Rand.v
theories/Addr.v
theories/Props_Addr.v
theories/Errors.v
theories/Props_Err.v
theories/IoLoops.v
theories/Props_Io.v
theories/ColistHeap.v
theories/Props_List.v
theories/ShardMap.v
theories/EventWait.v
theories/Props_Event.v
theories/Stream.v
theories/Props_Stream.v
theories/SelTimeout.v
theories/Props_Wait.v
theories/Count.v
theories/Props_Stats.v
theories/WorkInv.v
theories/Props_Work.v
theories/ChanMem.v
theories/Props_ChanMem.v
theories/Args.v
theories/Props_Args.v
theories/Worker.v
theories/Props_Worker.v
theories/StackMgr.v
theories/Props_Stack.v
theories/Props_Mutex.v
theories/CancelFate.v
theories/CancelWake.v
theories/CancelSpec.v
theories/CancelSt.v
theories/HandlerInv.v
theories/CancelKeep.v
theories/Stuck.v
theories/Props_Cancel.v
theories/AtCall.v
theories/WgSpec.v
theories/WgInv.v
theories/Props_Wg.v
theories/CvSpec.v
theories/CondInv.v
theories/Props_Cond.v
theories/ChanSpec.v
theories/ChanLists.v
theories/ChanEff.v
theories/ChanQuiet.v
theories/ChanFifo.v
theories/ChanLeak.v
theories/ChanProv.v
theories/ChanStatic.v
theories/GenInv.v
theories/ChanOrder.v
theories/Promise.v
theories/Handed.v
theories/Props_Chan.v
theories/RecvQ.v
theories/BcastEff.v
theories/Props_Bcast.v
theories/Props_Iso.v
theories/WatchInv.v
theories/FreshInv.v
theories/Props_Fresh.v
theories/Props_Gen.v
theories/SigInv.v
theories/SigTold.v
theories/SigOnce.v
theories/Props_Sig.v
theories/SelInv.v
theories/SelWait.v
theories/SelSlot.v
theories/Props_Select.v
theories/IoBg.v
theories/Props_IoBg.v
theories/Gai.v
theories/Props_Gai.v
theories/Serve.v
theories/Props_Serve.v
theories/Pipe.v
theories/Props_Pipe.v
theories/RtRes.v
theories/Props_RtRes.v
theories/EventKq.v
theories/Props_EventKq.v
theories/Pace.v
theories/Props_Pace.v
theories/Asm.v
theories/AsmLemmas.v
theories/Props_Asm.v
theories/Llco.v
theories/LlcoLemmas.v
theories/Props_Llco.v
theories/Asm64.v
theories/Asm64Lemmas.v
theories/Props_Asm64.v
theories/AsmRv.v
theories/AsmRvLemmas.v
theories/Props_AsmRv.v
theories/AsmArm.v
theories/AsmArmLemmas.v
theories/Props_AsmArm.v
theories/Asm386.v
theories/Asm386Lemmas.v
theories/Props_Asm386.v
theories/AsmWin.v
theories/AsmWinLemmas.v
theories/AsmWinInv.v
theories/Props_AsmWin.v
