-Q theories Verif
theories/Word.v
theories/QueueSpec.v
theories/CoreModel.v
theories/CoreArith.v
theories/CoreInv.v
theories/CoreStep.v
theories/History.v
theories/HistoryFacts.v
theories/RingSpec.v
theories/RingFacts.v
theories/Demo.v
theories/RingTheorems.v
theories/SeqModel.v
theories/SoloSpec.v
theories/Solo.v
theories/SoloFacts.v
theories/SeqSpec.v
theories/SeqFacts.v
theories/Teardown.v
theories/TeardownFacts.v
theories/Constructors.v
theories/SeqTheorems.v
theories/LockFreeSpec.v
theories/LockFree.v
theories/LockFreeTheorems.v
theories/Errors.v
theories/Recycling.v
theories/SpinLock.v
theories/BackoffModel.v
theories/TxCount.v
theories/Timeouts.v
theories/MiscFacts.v
theories/MiscTheorems.v
theories/WaitCellModel.v
theories/WaitCellSpec.v
theories/WaitCellFacts.v
theories/WaitCellTheorems.v
theories/WaitList.v
theories/WaitListSpec.v
theories/WaitListFacts.v
theories/WaitQueueModel.v
theories/WaitQueueSpec.v
theories/WaitQueueFacts.v
theories/WaitQueueSafety.v
theories/WaitQueueWake.v
theories/WaitQueuePatient.v
theories/WaitQueueStored.v
theories/WaitQueueCalls.v
theories/WaitQueueTheorems.v
theories/ChannelModel.v
theories/ChannelSpec.v
theories/ChannelFacts.v
theories/ChannelLink.v
theories/ChannelRing.v
theories/ChannelQueue.v
theories/ChannelEvents.v
theories/ChannelInv.v
theories/ChannelSend.v
theories/ChannelStop.v
theories/ChannelRecv.v
theories/ChannelEnd.v
theories/ChannelDeadlock.v
theories/ChannelProgress.v
theories/ChannelDrain.v
theories/ChannelClose.v
theories/ChannelPatient.v
theories/ChannelDemo.v
theories/ChannelResults.v
theories/ChannelTheorems.v
theories/ChannelTheoremsEnd.v
theories/PollSpec.v
theories/ChannelPoll.v
theories/PollTheorems.v
theories/SpinSpec.v
theories/ChannelSpin.v
theories/ChannelAlone.v
theories/SpinTheorems.v
theories/WakeSpec.v
theories/WakeCount.v
theories/ChannelPaid.v
theories/WakeTheorems.v
theories/WeakAdequacy.v
theories/WeakAdequacy2.v
theories/AgreeTheorems.v
theories/ChannelPrompt.v
theories/PromptTheorems.v
theories/ChannelKept.v
theories/KeptTheorems.v
theories/ChannelOrder.v
theories/ChainFacts.v
theories/WeakModel.v
theories/WeakSpec.v
theories/WeakInv.v
theories/WeakStep.v
theories/WeakDrop.v
theories/WeakFacts.v
theories/WeakTheorems.v
theories/WeakLenStep.v
theories/WeakLenInv.v
theories/WeakLen.v
theories/WeakLenTheorems.v
theories/Containers.v
theories/ContainerTheorems.v
theories/WeakCellModel.v
theories/WeakCellSpec.v
theories/WeakCellFacts.v
theories/WeakCellTheorems.v
theories/WeakChannelModel.v
theories/WeakChannelSpec.v
theories/WeakChannelFacts.v
theories/WeakChannelInv.v
theories/WeakChannelTheorems.v
theories/RingWrap.v
theories/WrapTheorems.v
theories/WeakQueueModel.v
theories/WeakQueueFacts.v
theories/WeakQueueInv.v
theories/WeakQueueMove.v
theories/WeakQueueData.v
theories/WeakQueuePatient.v
theories/WeakQueueLate.v
theories/WeakQueueTheorems.v
theories/WeakWholeModel.v
theories/WeakWholeFacts.v
theories/WeakWholeLink.v
theories/WeakWholeSend.v
theories/WeakWholeSpec.v
theories/WeakWholeStop.v
theories/WeakWholeDemo.v
theories/WeakWholeTheorems.v
theories/WeakSpinModel.v
theories/WeakSpinTheorems.v
