-Q theories Verif
theories/Base.v
theories/Model/StringUtils.v
theories/Spec/Json.v
theories/Spec/Text.v
theories/Spec/Glob.v
theories/Spec/Numeral.v
theories/Proofs/Strings.v
theories/Proofs/Numerals.v
theories/Model/Event.v
theories/Proofs/JsonText.v
theories/Spec/EventValue.v
theories/Proofs/Event.v
theories/Props/Strings.v
theories/Props/Events.v
theories/Model/Queue.v
theories/Model/Buffer.v
theories/Spec/History.v
theories/Proofs/Queue.v
theories/Proofs/Buffer.v
theories/Props/Buffer.v
theories/Model/Export.v
theories/Spec/Document.v
theories/Proofs/Export.v
theories/Spec/Ledger.v
theories/Model/DynArray.v
theories/Proofs/DynArray.v
theories/Props/DynArray.v
theories/Props/Export.v
theories/Spec/FileSave.v
theories/Model/FileSave.v
theories/Proofs/FileSave.v
theories/Props/FileSave.v
theories/Spec/Calendar.v
theories/Model/FileName.v
theories/Proofs/FileName.v
theories/Props/FileName.v
theories/Model/Context.v
theories/Spec/Context.v
theories/Proofs/Context.v
theories/Props/Context.v
theories/Model/Registry.v
theories/Spec/Categories.v
theories/Proofs/Registry.v
theories/Props/Registry.v
theories/Model/Config.v
theories/Spec/ConfigText.v
theories/Proofs/Config.v
theories/Props/Config.v
theories/Model/Interleave.v
theories/Proofs/Interleave.v
theories/Spec/LockHistory.v
theories/Model/ChunkLock.v
theories/Proofs/ChunkLock.v
theories/Props/ChunkLock.v
theories/Spec/QueueHistory.v
theories/Model/QueueConc.v
theories/Proofs/QueueConc.v
theories/Props/QueueConc.v
theories/Spec/CategoryHistory.v
theories/Model/RegistryConc.v
theories/Proofs/RegistryConc.v
theories/Props/RegistryConc.v
theories/Model/Guards.v
theories/Spec/Scope.v
theories/Props/Guards.v
theories/Spec/LogHistory.v
theories/Model/TraceLog.v
theories/Spec/LogMemory.v
theories/Proofs/LogFrame.v
theories/Proofs/LogView.v
theories/Proofs/LogViewInv.v
theories/Spec/LogFacts.v
theories/Spec/LogCalls.v
theories/Proofs/LogContract.v
theories/Proofs/LogCalls.v
theories/Proofs/LogBuffers.v
theories/Proofs/LogGate.v
theories/Props/Log.v
theories/Props/LogCalls.v
theories/Props/LogState.v
theories/Proofs/LogSafe.v
theories/Proofs/LogSafeInv.v
theories/Proofs/LogSafeAT.v
theories/Proofs/LogSafeOW.v
theories/Proofs/LogSafeAll.v
theories/Proofs/LogRaces.v
theories/Proofs/LogHolders.v
theories/Proofs/LogFailures.v
theories/Proofs/LogHandover.v
theories/Props/LogSafety.v
theories/Spec/LogRecords.v
theories/Proofs/LogRecords.v
theories/Props/LogRecords.v
theories/Proofs/LogGhost.v
theories/Proofs/LogDebts.v
theories/Props/LogDebts.v
theories/Spec/LogEnd.v
theories/Proofs/LogFull.v
theories/Proofs/LogAlone.v
theories/Props/LogFull.v
theories/Spec/LogProgress.v
theories/Proofs/LogProgress.v
theories/Props/LogProgress.v
theories/Proofs/LogRing.v
theories/Proofs/RingStuck.v
theories/Props/LogRing.v
theories/Model/ManyLogs.v
theories/Model/WeakMem.v
theories/Model/WeakLock.v
theories/Spec/SwitchHistory.v
theories/Model/WeakQueue.v
theories/Model/WeakRegistry.v
theories/Spec/LogUse.v
theories/Model/WeakLog.v
theories/Props/ManyLogs.v
theories/Spec/ManyLogs.v
theories/Proofs/ManyLogs.v
theories/Spec/ThreadLife.v
theories/Model/ThreadLife.v
theories/Proofs/ThreadLife.v
theories/Props/ThreadLife.v
theories/Proofs/WeakMem.v
theories/Proofs/WeakLock.v
theories/Proofs/WeakQueue.v
theories/Proofs/WeakRegistry.v
theories/Proofs/WeakLog.v
theories/Props/Weak.v
theories/Props/WeakRegistry.v
theories/Props/WeakLog.v
theories/Model/Shortage.v
theories/Proofs/Shortage.v
theories/Props/Shortage.v
theories/Spec/RingHistory.v
theories/Model/RingConc.v
theories/Proofs/RingConc.v
theories/Proofs/RingStage.v
theories/Proofs/RingWait.v
theories/Proofs/RingTurns.v
theories/Props/RingConc.v
theories/Spec/FixedHistory.v
theories/Model/FixedConc.v
theories/Proofs/FixedConc.v
theories/Props/FixedConc.v
theories/Props/EndToEnd.v
theories/Model/StatsConc.v
theories/Proofs/StatsConc.v
theories/Props/StatsConc.v
theories/Model/RingWeak.v
theories/Proofs/RingWeak.v
theories/Props/RingWeak.v
theories/Model/LogQueue.v
theories/Spec/LogQueue.v
theories/Proofs/LogQueue.v
theories/Props/LogQueue.v
theories/Model/LogRegistry.v
theories/Spec/LogRegistry.v
theories/Proofs/LogRegistry.v
theories/Props/LogRegistry.v
theories/Model/Format.v
theories/Spec/Format.v
theories/Proofs/Format.v
theories/Props/Format.v
theories/Model/FileTime.v
theories/Proofs/FileTime.v
theories/Props/FileTime.v
theories/Spec/FixedWeak.v
theories/Model/FixedWeak.v
theories/Proofs/FixedWeak.v
theories/Props/FixedWeak.v
theories/Proofs/WeakProgress.v
theories/Props/WeakProgress.v
theories/Spec/BufferUse.v
theories/Model/UserBuffer.v
theories/Proofs/UserBuffer.v
theories/Props/UserBuffer.v
theories/Spec/ThreadIds.v
theories/Model/ThreadIds.v
theories/Proofs/ThreadIds.v
theories/Props/ThreadIds.v
theories/Spec/StatsUse.v
theories/Model/StatsCall.v
theories/Proofs/StatsCall.v
theories/Props/StatsCall.v
theories/Spec/Counter.v
theories/Model/Counter.v
theories/Proofs/Counter.v
theories/Props/Counter.v
