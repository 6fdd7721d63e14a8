-Q theories Verif
theories/CapModel.v
theories/CapSpec.v
theories/CapFacts.v
theories/CapThms.v
theories/CapProps.v
theories/LruModel.v
theories/LruSpec.v
theories/LruFacts.v
theories/LruProps.v
theories/BucketModel.v
theories/BucketSpec.v
theories/BucketFacts.v
theories/BucketOps.v
theories/BucketOps2.v
theories/BucketOps3.v
theories/MapSpec.v
theories/MapFacts.v
theories/BucketRun.v
theories/BucketRunFacts.v
theories/BucketProps.v
theories/ReserveSpec.v
theories/ReserveFacts.v
theories/ReserveProps.v
theories/TableModel.v
theories/TableSpec.v
theories/TableFacts.v
theories/TableReloc.v
theories/TableHouse.v
theories/TableResize.v
theories/TableAccess.v
theories/TableOps.v
theories/IterSpec.v
theories/TableIter.v
theories/MapModel.v
theories/MapRef.v
theories/MapFacts2.v
theories/MapRunFacts.v
theories/MapWhole.v
theories/MapThms.v
theories/MapProps.v
theories/CursorModel.v
theories/CursorSpec.v
theories/CursorFacts.v
theories/CursorThms.v
theories/CursorProps.v
theories/LeafModel.v
theories/LeafSpec.v
theories/LeafFacts.v
theories/OrdFacts.v
theories/LeafOps.v
theories/LeafSeq.v
theories/LeafConc.v
theories/LeafLin.v
theories/LeafHist.v
theories/LeafConcFacts.v
theories/LeafThms.v
theories/LeafProps.v
theories/TreeModel.v
theories/TreeLeaf.v
theories/TreeHeap.v
theories/TreeLink.v
theories/TreeSplit.v
theories/TreeShape.v
theories/TreeIns.v
theories/TreeRem.v
theories/TreeIter.v
theories/TreeRange.v
theories/TreeRange2.v
theories/TreeRun.v
theories/TreeRace.v
theories/TreeCalls.v
theories/TreeWit.v
theories/TreeThms.v
theories/TreeUnwind.v
theories/TreeUnwindFacts.v
theories/TreeProps.v
theories/CtModel.v
theories/CtSpec.v
theories/CtInv.v
theories/CtStep.v
theories/CtPres.v
theories/CtPres2.v
theories/CtList.v
theories/CtPres3.v
theories/CtPres4.v
theories/CtLin.v
theories/CtMore.v
theories/CtLive.v
theories/CtWit.v
theories/CtThms.v
theories/CtProps.v
theories/GuardModel.v
theories/GuardSpec.v
theories/GuardThms.v
theories/GuardProps.v
theories/CacheModel.v
theories/CacheSpec.v
theories/CacheFacts.v
theories/CacheOps.v
theories/CacheRunFacts.v
theories/CacheLru.v
theories/CacheFix.v
theories/CacheThms.v
theories/CacheSerde.v
theories/CacheProps.v
theories/CacheTidy.v
theories/CacheTidy2.v
theories/CacheCapThms.v
theories/CacheCapProps.v
theories/GarbageModel.v
theories/GarbageSpec.v
theories/GarbageWit.v
theories/GarbageProps.v
theories/PeekModel.v
theories/PeekSpec.v
theories/PeekWit.v
theories/PeekRefProps.v
theories/PeekInv.v
theories/PeekGood.v
theories/PeekOps.v
theories/PeekOps2.v
theories/PeekStore.v
theories/PeekGlob.v
theories/PeekStart.v
theories/PeekTrans.v
theories/PeekSteps.v
theories/PeekStepInv.v
theories/PeekRead.v
theories/PeekSeen.v
theories/PeekRun.v
theories/PeekThms.v
theories/PeekWit2.v
theories/PeekProps.v
theories/IndexModel.v
theories/IndexRef.v
theories/IndexFacts.v
theories/IndexFacts2.v
theories/IndexIter.v
theories/IndexRun.v
theories/IndexThms.v
theories/IndexLeak.v
theories/IndexTidy.v
theories/IndexProps.v
theories/TcModel.v
theories/TcRoute.v
theories/TcSpec.v
theories/TcInv.v
theories/TcTree.v
theories/TcFrame.v
theories/TcRedir.v
theories/TcRet.v
theories/TcKeep.v
theories/TcJobs.v
theories/TcSplit.v
theories/TcFrz.v
theories/TcMove.v
theories/TcGrow.v
theories/TcFz.v
theories/TcFzs.v
theories/TcExt.v
theories/TcSys.v
theories/TcOps.v
theories/TcRun.v
theories/TcLin.v
theories/TcLins.v
theories/TcOne.v
theories/TcOnce.v
theories/TcWit.v
theories/TcThms.v
theories/TcProps.v
theories/TiModel.v
theories/TiInv.v
theories/TiConv.v
theories/TiList.v
theories/TiMove.v
theories/TiBlk.v
theories/TiPush.v
theories/TiStep.v
theories/TiSysA.v
theories/TiSysB.v
theories/TiSysC.v
theories/TiSysD.v
theories/TiSysE.v
theories/TiSysF.v
theories/TiSys.v
theories/TiExt.v
theories/TiTs.v
theories/TiCur.v
theories/TiSeek.v
theories/TiLoop.v
theories/TiSpec.v
theories/TiJob.v
theories/TiWay.v
theories/TiMark.v
theories/TiOrd.v
theories/TiAsc.v
theories/TiWit.v
theories/TiCalls.v
theories/TiEx.v
theories/TiThms.v
theories/TiProps.v
theories/RgModel.v
theories/RgSpec.v
theories/RgFacts.v
theories/RgMore.v
theories/RgThms.v
theories/RgProps.v
theories/TuModel.v
theories/TuFacts.v
theories/TuSpec.v
theories/TuFacts2.v
theories/TuThms.v
theories/TlModel.v
theories/TlThms.v
theories/TuProps.v
theories/SuspModel.v
theories/SuspSpec.v
theories/SuspFacts.v
theories/SuspFrame.v
theories/SuspStep.v
theories/SuspStep2.v
theories/SuspStep3.v
theories/SuspRun.v
theories/SuspThms.v
theories/SuspProps.v
theories/LbModel.v
theories/LbSpec.v
theories/LbFacts.v
theories/LbUp.v
theories/LbThms.v
theories/LbProps.v
theories/TmModel.v
theories/TmSpec.v
theories/TmFacts.v
theories/TmAsc.v
theories/TmThms.v
theories/TmProps.v
theories/TnFacts.v
theories/TnThms.v
theories/TnProps.v
theories/ToSpec.v
theories/ToFacts.v
theories/ToThms.v
theories/ToProps.v
theories/KpModel.v
theories/KpSpec.v
theories/KpFacts.v
theories/KpProps.v
theories/PkSpec.v
theories/PkFacts.v
theories/PkWit.v
theories/PkProps.v
theories/LvSpec.v
theories/LvFacts.v
theories/LvProps.v
theories/CkModel.v
theories/CkSpec.v
theories/CkFacts.v
theories/CkProps.v
theories/AnModel.v
theories/AnSpec.v
theories/AnFacts.v
theories/AnProps.v
theories/AnIndex.v
theories/AnxProps.v
theories/EnModel.v
theories/EnSpec.v
theories/EnFacts.v
theories/EnProps.v
theories/EnxModel.v
theories/EnxSpec.v
theories/EnxFacts.v
theories/EnxProps.v
