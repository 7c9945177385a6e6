-Q theories Verif
theories/ArgModel.v
theories/CallSpec.v
theories/ConcArg.v
theories/ConcBound.v
theories/ConcBulk.v
theories/ConcBulk2.v
theories/ConcBulk3.v
theories/ConcBulk4.v
theories/ConcBulk5.v
theories/ConcBulk6.v
theories/ConcBulkExec.v
theories/ConcBulkModel.v
theories/ConcBulkSpec.v
theories/ConcCap.v
theories/ConcConv.v
theories/ConcExamples.v
theories/ConcExec.v
theories/ConcFound.v
theories/ConcGrow.v
theories/ConcGrowSpec.v
theories/ConcHash.v
theories/ConcHet.v
theories/ConcInv.v
theories/ConcKeys.v
theories/ConcLin1.v
theories/ConcLin2.v
theories/ConcLin3.v
theories/ConcLive.v
theories/ConcLog.v
theories/ConcModel.v
theories/ConcNode.v
theories/ConcNode2.v
theories/ConcNode3.v
theories/ConcNodeExec.v
theories/ConcNodeModel.v
theories/ConcNodeSpec.v
theories/ConcPar.v
theories/ConcPar2.v
theories/ConcPar3.v
theories/ConcPar4.v
theories/ConcParExec.v
theories/ConcParModel.v
theories/ConcProgress.v
theories/ConcProps.v
theories/ConcSerial.v
theories/ConcSolo.v
theories/ConcSolo2.v
theories/ConcSpec.v
theories/ConcStep.v
theories/ConcStep2.v
theories/ConcStep3.v
theories/ConcSys.v
theories/ConcSys2.v
theories/ConcVisit.v
theories/ConcWhole.v
theories/ConcWrap.v
theories/ConcWrap2.v
theories/FcaApi.v
theories/FcaArg.v
theories/FcaCalls.v
theories/FcaCalls2.v
theories/FcaCalls3.v
theories/FcaCalls4.v
theories/FcaCalls5.v
theories/FcaCopy.v
theories/FcaEq.v
theories/FcaErase.v
theories/FcaErase2.v
theories/FcaExamples.v
theories/FcaGrow.v
theories/FcaGrowKeep.v
theories/FcaGrowSpec.v
theories/FcaHandle.v
theories/FcaHet.v
theories/FcaIns.v
theories/FcaIns2.v
theories/FcaInv.v
theories/FcaIter.v
theories/FcaLinks.v
theories/FcaLinksProofs.v
theories/FcaLoad.v
theories/FcaMem.v
theories/FcaMemKeep.v
theories/FcaMemProofs.v
theories/FcaMerge.v
theories/FcaModel.v
theories/FcaMove.v
theories/FcaOps.v
theories/FcaProps.v
theories/FcaProps2.v
theories/FcaQuery.v
theories/FcaRangeLoad.v
theories/FcaRehash.v
theories/FcaReserve.v
theories/FcaReserve2.v
theories/FcaRun.v
theories/FcaRun2.v
theories/FcaRun3.v
theories/FcaRun4.v
theories/FcaSerial.v
theories/FcaSerialModel.v
theories/FcaSpec.v
theories/FcaTab.v
theories/FcaWorld.v
theories/FloatModel.v
theories/FloatProofs.v
theories/FoaApi.v
theories/FoaArg.v
theories/FoaArr.v
theories/FoaAssign.v
theories/FoaBase.v
theories/FoaCalls.v
theories/FoaCalls2.v
theories/FoaCalls3.v
theories/FoaCalls4.v
theories/FoaCopy.v
theories/FoaExamples.v
theories/FoaFind.v
theories/FoaGroup.v
theories/FoaGrow.v
theories/FoaGrow2.v
theories/FoaHet.v
theories/FoaInv.v
theories/FoaIter.v
theories/FoaIterModel.v
theories/FoaMem.v
theories/FoaMemKeep.v
theories/FoaMemProofs.v
theories/FoaMerge.v
theories/FoaModel.v
theories/FoaNode.v
theories/FoaNode2.v
theories/FoaNodeModel.v
theories/FoaOps.v
theories/FoaProps.v
theories/FoaProps2.v
theories/FoaProps3.v
theories/FoaPull.v
theories/FoaRehash.v
theories/FoaRun.v
theories/FoaSerial.v
theories/FoaSpec.v
theories/FoaWorld.v
theories/GroupModel.v
theories/GroupProofs.v
theories/GroupRun.v
theories/GroupSpec.v
theories/GrowSpec.v
theories/HashArithModel.v
theories/HashArithProofs.v
theories/LocksModel.v
theories/LocksProofs.v
theories/MemSpec.v
theories/NodeExamples.v
theories/NodeFacts.v
theories/NodeSpec.v
theories/Properties_Arg.v
theories/Properties_Arith.v
theories/Properties_Bulk.v
theories/Properties_Calls.v
theories/Properties_Cap.v
theories/Properties_Conc.v
theories/Properties_ConcArg.v
theories/Properties_ConcGrow.v
theories/Properties_ConcHash.v
theories/Properties_ConcHet.v
theories/Properties_ConcNode.v
theories/Properties_ConcSize.v
theories/Properties_Fca.v
theories/Properties_FcaArg.v
theories/Properties_FcaCalls.v
theories/Properties_FcaCalls2.v
theories/Properties_FcaGrow.v
theories/Properties_FcaLoad.v
theories/Properties_FcaMem.v
theories/Properties_FcaRange.v
theories/Properties_Foa.v
theories/Properties_Grow.v
theories/Properties_Het.v
theories/Properties_Locks.v
theories/Properties_Mem.v
theories/Properties_Node.v
theories/Properties_NodeFca.v
theories/Properties_Par.v
theories/Properties_Ptr.v
theories/Properties_Pull.v
theories/Properties_Reent.v
theories/Properties_RwSpinlock.v
theories/Properties_RwWeak.v
theories/Properties_Serial.v
theories/Properties_SerialFca.v
theories/Properties_Solo.v
theories/Properties_Stats.v
theories/Properties_Weak.v
theories/Properties_WeakSC.v
theories/PtrFacts.v
theories/PtrSpec.v
theories/ReentModel.v
theories/ReentProofs.v
theories/ReentSpec.v
theories/RwSpinlockModel.v
theories/RwSpinlockProofs.v
theories/RwWeakHb.v
theories/RwWeakModel.v
theories/RwWeakProofs.v
theories/SerialFacts.v
theories/SerialModel.v
theories/SerialSpec.v
theories/SizeModel.v
theories/SizeProofs.v
theories/StatsModel.v
theories/WeakDep.v
theories/WeakEff.v
theories/WeakExamples.v
theories/WeakExec.v
theories/WeakFind.v
theories/WeakHb.v
theories/WeakIns.v
theories/WeakInv.v
theories/WeakInv2.v
theories/WeakInv3.v
theories/WeakLin.v
theories/WeakLook.v
theories/WeakLook2.v
theories/WeakModel.v
theories/WeakSB.v
theories/WeakSC.v
theories/WeakSee.v
theories/WeakSpec.v
theories/WeakStep.v
theories/WeakSys.v
theories/WeakSys2.v
