-Q theories Verif
theories/Base.v
theories/Kernel.v
theories/Wp.v
theories/KernelE.v
theories/KernelL.v
theories/KernelX.v
theories/KernelT.v
theories/KernelU.v
theories/KernelR.v
theories/KernelQ.v
theories/KernelS.v
theories/KernelI.v
theories/KernelP.v
theories/KernelO.v
theories/KernelA.v
theories/KernelB.v
theories/KernelC.v
theories/KernelD.v
theories/KernelF.v
theories/KernelG.v
theories/KernelV.v
theories/KernelW.v
theories/KernelH.v
theories/KernelY.v
theories/KernelZ.v
theories/KernelN.v
theories/PropSched.v
theories/PropRes.v
theories/PropReq.v
theories/PropCalls.v
theories/PropWake.v
theories/PropGrant.v
theories/PropOnce.v
theories/PropRem.v
theories/PropState.v
theories/PropStore.v
theories/QHeap.v
theories/QSpec.v
theories/QHeapP.v
theories/QHeapR.v
theories/QHeapI.v
theories/QHeapS.v
theories/PropQueue.v
theories/PropQueueB.v
theories/Util.v
theories/PropUtil.v
theories/Mon.v
theories/MonSpec.v
theories/MonP.v
theories/MonQ.v
theories/MonR.v
theories/PropMon.v
theories/PropMonB.v
theories/PropMonC.v
theories/PropMonD.v
theories/Dist.v
theories/PropDist.v
theories/PropDistB.v
theories/PropDistC.v
theories/PropDistD.v
theories/Gen.v
theories/PropGen.v
theories/PropGenB.v
theories/Item.v
theories/PropItem.v
theories/PropWatch.v
theories/Traj.v
theories/TrajP.v
theories/PropTraj.v
theories/PropTrajB.v
theories/PropTrajC.v
theories/PropPeek.v
theories/Period.v
theories/PeriodP.v
theories/PropPeriod.v
theories/MonT.v
theories/PropMonE.v
theories/PropMonF.v
theories/PropHead.v
theories/PropSafe.v
theories/PropGenC.v
theories/PropMonG.v
theories/PropStoreB.v
theories/PropSafeS.v
theories/Anim.v
theories/PropAnim.v
theories/PropSlice.v
theories/PropDistE.v
theories/PropMonH.v
theories/KernelK.v
theories/PropScale.v
theories/KernelPart.v
theories/PropPart.v
theories/KernelM.v
theories/PropLine.v
theories/KernelPrio.v
theories/PropRank.v
theories/WaitExpr.v
theories/PropWaitX.v
theories/KernelJ.v
theories/PropDiagram.v
theories/AnimQ.v
theories/PropAnimQ.v
theories/DistText.v
theories/PropDistText.v
theories/PropRefuse.v
theories/Frames.v
theories/PropFrames.v
theories/Apng.v
theories/PropApng.v
theories/Poisson.v
theories/PropPoisson.v
theories/Colour.v
theories/PropColour.v
theories/AnimMon.v
theories/PropAnimMon.v
theories/Fmt.v
theories/PropFmt.v
theories/Shape.v
theories/PropShape.v
theories/External.v
theories/PropExternal.v
theories/View.v
theories/PropView.v
theories/Pad.v
theories/PropPad.v
