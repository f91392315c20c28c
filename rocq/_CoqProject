-Q theories Verif
theories/Lin.v
theories/LinObs.v
theories/LinFacts.v
theories/TaggedModel.v
theories/TaggedProofs.v
theories/PropTagged.v
theories/PoolModel.v
theories/Chain.v
theories/PoolProofs.v
theories/QueueModel.v
theories/QueueSpec.v
theories/QueueObs.v
theories/QueueInv.v
theories/QueueStep.v
theories/QueueSafe.v
theories/QueueObsProofs.v
theories/QueueHist.v
theories/QueueQuiet.v
theories/QueueSolo.v
theories/QueueDemo.v
theories/QueueMain.v
theories/QueueLeakSpec.v
theories/QueueLeak.v
theories/QueueWitness.v
theories/PropQueue.v
theories/StackModel.v
theories/StackSpec.v
theories/StackObs.v
theories/StackInv.v
theories/StackStep.v
theories/StackSafe.v
theories/StackObsProofs.v
theories/StackQuiet.v
theories/StackLeakSpec.v
theories/StackLeak.v
theories/StackDemo.v
theories/StackMain.v
theories/StackWitness.v
theories/PropStack.v
theories/PoolMachine.v
theories/PoolMachineProofs.v
theories/PoolMain.v
theories/PropPool.v
theories/LinPerm.v
theories/SpscModel.v
theories/SpscSpec.v
theories/SpscArith.v
theories/SpscInv.v
theories/SpscStep.v
theories/SpscProd.v
theories/SpscCons.v
theories/SpscSafe.v
theories/SpscObs.v
theories/SpscHist.v
theories/SpscWin.v
theories/SpscSeq.v
theories/SpscLife.v
theories/SpscWait.v
theories/SpscDemo.v
theories/SpscMain.v
theories/SpscWitness.v
theories/PropSpsc.v
theories/LiveSum.v
theories/QueueLive.v
theories/StackLive.v
theories/LiveWitness.v
theories/PropLive.v
theories/WrapPool.v
theories/QueueWrapObs.v
theories/QueueWrap.v
theories/StackWrapObs.v
theories/StackWrap.v
theories/LinDup.v
theories/QueueAba.v
theories/StackAba.v
theories/WrapWitness.v
theories/QueueWrapMain.v
theories/StackWrapMain.v
theories/WrapMainWitness.v
theories/PropWrap.v
theories/PropQueueWrap.v
theories/PropStackWrap.v
theories/PoolWrapObs.v
theories/PoolWrap.v
theories/PoolAba.v
theories/PoolWrapWitness.v
theories/PropPoolWrap.v
theories/StackFlow.v
theories/StackCons.v
theories/ConsWitness.v
theories/PropCons.v
theories/LoopModel.v
theories/LoopObs.v
theories/LoopFacts.v
theories/LoopQueue.v
theories/LoopStack.v
theories/LoopDemo.v
theories/PropLoop.v
theories/LoopWrapObs.v
theories/LoopWrap.v
theories/LoopWrapWitness.v
theories/PropLoopWrap.v
theories/RaMem.v
theories/RaFacts.v
theories/RaLin.v
theories/RaLog.v
theories/RaStackModel.v
theories/RaStackObs.v
theories/RaStackInv.v
theories/RaStackKeep.v
theories/RaStackStep.v
theories/RaStackSafe.v
theories/RaStackMain.v
theories/RaStackLast.v
theories/RaStackDemo.v
theories/RaStackWitness.v
theories/PropRaStack.v
theories/RaStackLastWitness.v
theories/PropRaStackDtor.v
theories/RaTags.v
theories/RaTagFacts.v
theories/RaStackWrapObs.v
theories/RaStackWrap.v
theories/RaStackWrapMain.v
theories/RaStackSolo.v
theories/RaStackAba.v
theories/RaStackWrapWitness.v
theories/PropRaStackWrap.v
theories/RaQueueWrapObs.v
theories/RaQueueWrap.v
theories/RaQueueWrapSim.v
theories/RaQueueWrapMain.v
theories/RaQueueWrapWitness.v
theories/PropRaQueueWrap.v
theories/RaQueueModel.v
theories/RaQueueSpec.v
theories/RaQueueObs.v
theories/RaQueueLog.v
theories/RaQueueInv.v
theories/RaQueueKeep.v
theories/RaQueueStep.v
theories/RaQueueOk.v
theories/RaQueueSafe.v
theories/RaQueueMain.v
theories/RaQueueDemo.v
theories/RaQueueWitness.v
theories/PropRaQueue.v
theories/RaQueueLast.v
theories/RaQueueLastWitness.v
theories/PropRaQueueDtor.v
theories/DestSpec.v
theories/DestQueueModel.v
theories/DestStackModel.v
theories/DestFacts.v
theories/DestQueue.v
theories/DestStack.v
theories/DestWitness.v
theories/PropDest.v
theories/ConfigModel.v
theories/ConfigSpec.v
theories/ConfigProofs.v
theories/ConfigMain.v
theories/ConfigWitness.v
theories/PropConfig.v
theories/PeakSum.v
theories/QueuePeak.v
theories/StackPeak.v
theories/QueuePeakProofs.v
theories/StackPeakProofs.v
theories/QueuePeakWrap.v
theories/StackPeakWrap.v
theories/QueuePeakWitness.v
theories/StackPeakWitness.v
theories/PropMemory.v
theories/WaitObs.v
theories/WaitQueue.v
theories/WaitStack.v
theories/WaitEmpty.v
theories/WaitWitness.v
theories/PropWait.v
theories/QueueSpurious.v
theories/StackSpurious.v
theories/QueueSpuriousWrap.v
theories/StackSpuriousWrap.v
theories/SpuriousWitness.v
theories/PropSpurious.v
theories/StackLeakWrap.v
theories/QueueLeakWrap.v
theories/StackLeakWitness.v
theories/PropStackLeak.v
theories/QueueLeakWitness.v
theories/PropQueueLeak.v
theories/QueueAlone.v
theories/StackAlone.v
theories/AloneWitness.v
theories/PropAlone.v
theories/QueueAloneWrap.v
theories/StackAloneWrap.v
theories/AloneWrapWitness.v
theories/PropAloneWrap.v
theories/SpscShareModel.v
theories/SpscShare.v
theories/SpscShareNames.v
theories/SpscShareWitness.v
theories/PropSpscShare.v
