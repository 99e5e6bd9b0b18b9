-Q theories Verif
theories/Lts.v
theories/ListFacts.v
theories/M_Wait.v
theories/S_Wait.v
theories/P_WaitView.v
theories/P_Wait.v
theories/M_Queue.v
theories/S_Queue.v
theories/P_Queue.v
theories/T_Queue.v
theories/M_Recurring.v
theories/S_Recurring.v
theories/P_Recurring.v
theories/T_Recurring.v
theories/P_Sequenced.v
theories/P_Barrier.v
theories/T_Sequenced.v
theories/M_WaitGroup.v
theories/S_WaitGroup.v
theories/P_WaitGroup.v
theories/T_WaitGroup.v
theories/M_Future.v
theories/S_Future.v
theories/P_Future.v
theories/T_Future.v
theories/M_Handles.v
theories/S_Handles.v
theories/P_Handles.v
theories/T_Handles.v
theories/M_PostAck.v
theories/S_PostAck.v
theories/P_PostAck.v
theories/P_PostAckInv.v
theories/P_PostAckSteps.v
theories/P_PostAckRun.v
theories/P_PostAckMain.v
theories/T_PostAck.v
theories/M_Mutex.v
theories/S_Mutex.v
theories/P_Mutex.v
theories/T_Mutex.v
theories/M_SharedMutex.v
theories/S_SharedMutex.v
theories/P_SharedMutex.v
theories/P_SharedMutexMain.v
theories/T_SharedMutex.v
theories/M_OneshotPrim.v
theories/S_OneshotPrim.v
theories/P_OneshotPrim.v
theories/T_OneshotPrim.v
theories/M_Cancel.v
theories/S_Cancel.v
theories/P_Cancel.v
theories/P_CancelInv.v
theories/P_CancelMark.v
theories/P_CancelStep.v
theories/P_CancelMain.v
theories/T_Cancel.v
theories/M_Suspend.v
theories/S_Suspend.v
theories/P_Suspend.v
theories/M_WithCancel.v
theories/S_WithCancel.v
theories/P_WithCancel.v
theories/T_Suspend.v
theories/M_WhenAll.v
theories/S_WhenAll.v
theories/P_WhenAll.v
theories/M_Race.v
theories/S_Race.v
theories/P_Race.v
theories/T_Parallel.v
theories/M_Algo.v
theories/S_Algo.v
theories/P_Algo.v
theories/T_Algo.v
theories/M_Result.v
theories/S_Result.v
theories/P_Result.v
theories/T_Result.v
theories/M_Generator.v
theories/S_Generator.v
theories/P_Generator.v
theories/T_Generator.v
theories/M_Run.v
theories/S_Run.v
theories/P_Run.v
theories/T_Run.v
theories/M_Weak.v
theories/M_MutexW.v
theories/S_MutexW.v
theories/P_MutexW.v
theories/M_SharedMutexW.v
theories/S_SharedMutexW.v
theories/P_SharedMutexW.v
theories/P_SharedMutexWD.v
theories/T_MutexW.v
theories/T_SharedMutexW.v
theories/M_WaitHB.v
theories/S_WaitHB.v
theories/P_WaitKnow.v
theories/P_WaitHB.v
theories/P_WaitVis.v
theories/M_WaitLocks.v
theories/P_WaitUse.v
theories/T_WaitHB.v
theories/M_HB.v
theories/P_HB.v
theories/M_ResultHB.v
theories/S_ResultHB.v
theories/P_ResultHB.v
theories/T_ResultHB.v
theories/M_WaitGroupW.v
theories/M_WaitGroupWD.v
theories/S_WaitGroupW.v
theories/P_WaitGroupW.v
theories/T_WaitGroupW.v
theories/S_WaitGroupWD.v
theories/P_WaitGroupWD.v
theories/T_WaitGroupWD.v
theories/M_InGroup.v
theories/S_InGroup.v
theories/P_InGroup.v
theories/T_InGroup.v
theories/M_BarrierW.v
theories/S_BarrierW.v
theories/P_BarrierW.v
theories/T_BarrierW.v
theories/M_SequencedW.v
theories/S_SequencedW.v
theories/P_SequencedW.v
theories/T_SequencedW.v
theories/M_OneshotW.v
theories/S_OneshotW.v
theories/P_OneshotW.v
theories/T_OneshotW.v
theories/M_WhenAllHB.v
theories/S_WhenAllHB.v
theories/P_WhenAllHB.v
theories/T_WhenAllHB.v
theories/M_RaceHB.v
theories/S_RaceHB.v
theories/P_RaceHB.v
theories/T_RaceHB.v
theories/M_WithCancelHB.v
theories/S_WithCancelHB.v
theories/P_WithCancelHB.v
theories/T_WithCancelHB.v
theories/M_SuspendHB.v
theories/S_SuspendHB.v
theories/P_SuspendHB.v
theories/T_SuspendHB.v
theories/M_PromiseHB.v
theories/S_PromiseHB.v
theories/P_PromiseHB.v
theories/P_PromiseHB2.v
theories/P_PromiseHB3.v
theories/T_PromiseHB.v
theories/M_PostAckHB.v
theories/S_PostAckHB.v
theories/P_PostAckHB.v
theories/P_PostAckHB2.v
theories/P_PostAckHB3.v
theories/P_PostAckHB4.v
theories/P_PostAckHB5.v
theories/T_PostAckHB.v
theories/M_Coro.v
theories/S_Coro.v
theories/P_Coro.v
theories/T_Coro.v
theories/M_CancelHB.v
theories/S_CancelHB.v
theories/P_CancelHB.v
theories/P_CancelHB2.v
theories/P_CancelHB3.v
theories/P_CancelHB4.v
theories/T_CancelHB.v
theories/M_RunHB.v
theories/P_RunHB.v
theories/T_RunHB.v
theories/M_PostAckMove.v
theories/S_PostAckMove.v
theories/P_PostAckMove.v
theories/T_PostAckMove.v
theories/M_GeneratorMove.v
theories/S_GeneratorMove.v
theories/P_GeneratorMove.v
theories/T_GeneratorMove.v
theories/M_WaitGroupC.v
theories/S_WaitGroupC.v
theories/P_WaitGroupC.v
theories/T_WaitGroupC.v
theories/M_WaitGroupHB.v
theories/S_WaitGroupHB.v
theories/P_WaitGroupHB.v
theories/T_WaitGroupHB.v
theories/M_WaitLists.v
theories/S_WaitLists.v
theories/P_WaitLists.v
theories/T_WaitLists.v
theories/M_WaitLife.v
theories/S_WaitLife.v
theories/P_WaitLife.v
theories/T_WaitLife.v
theories/M_QueueHB.v
theories/S_QueueHB.v
theories/P_QueueHB.v
theories/T_QueueHB.v
theories/P_MutexLife.v
theories/T_MutexLife.v
theories/M_SequencedHB.v
theories/S_SequencedHB.v
theories/P_SequencedHB.v
theories/T_SequencedHB.v
theories/M_MutexWD.v
theories/P_MutexWD.v
theories/M_SharedMutexWD.v
theories/P_SharedMutexWL.v
theories/T_MutexWD.v
theories/M_Erased.v
theories/S_Erased.v
theories/P_Erased.v
theories/T_Erased.v
theories/M_Nest.v
theories/S_Nest.v
theories/P_Nest.v
theories/T_Nest.v
theories/M_NestHB.v
theories/S_NestHB.v
theories/P_NestHB.v
theories/T_NestHB.v
theories/M_OneshotWD.v
theories/S_OneshotWD.v
theories/P_OneshotWD.v
theories/T_OneshotWD.v
theories/S_Robust.v
theories/P_Robust.v
theories/T_Robust.v
theories/M_Connect.v
theories/S_Connect.v
theories/P_Connect.v
theories/T_Connect.v
theories/M_Unstarted.v
theories/S_Unstarted.v
theories/P_Unstarted.v
theories/T_Unstarted.v
theories/S_NestLaws.v
theories/P_NestLaws.v
theories/T_NestLaws.v
theories/S_NestDet.v
theories/P_NestDet.v
theories/T_NestDet.v
theories/P_NestStop.v
theories/T_NestStop.v
theories/M_NestStack.v
theories/S_NestStack.v
theories/P_NestStack.v
theories/S_NestAsync.v
theories/P_NestAsync.v
theories/T_NestStack.v
theories/S_NestSafe.v
theories/P_NestSafe.v
theories/T_NestSafe.v
