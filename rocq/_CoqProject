-Q theories Verif
theories/Base.v
theories/StorageOrder.v
theories/Ranges.v
theories/Layout.v
theories/Access.v
theories/Objects.v
theories/Memory.v
theories/Ops.v
theories/MultiArray.v
theories/Handles.v
theories/Threads.v
theories/Const.v
theories/Algorithms.v
theories/UserCode.v
theories/Spec.v
theories/Facts.v
theories/LayoutProofs.v
theories/AccessProofs.v
theories/ViewSpec.v
theories/ViewProofs.v
theories/MemoryProofs.v
theories/CopyProofs.v
theories/ReachSpec.v
theories/ReachProofs.v
theories/IterSpec.v
theories/MemSpec.v
theories/CompareSpec.v
theories/OwnSpec.v
theories/CheckSpec.v
theories/History.v
theories/Calls.v
theories/Stored.v
theories/Shared.v
theories/Strict.v
theories/Torn.v
theories/Quota.v
theories/Concur.v
theories/Fork.v
theories/Lock.v
theories/RepoTests.v
theories/HistorySpec.v
theories/AliasSpec.v
theories/StoredSpec.v
theories/CallSpec.v
theories/FaultSpec.v
theories/ThreadSpec.v
theories/SharedSpec.v
theories/ConstSpec.v
theories/SeqSpec.v
theories/CostSpec.v
theories/ConcurSpec.v
theories/ParSpec.v
theories/ForkSpec.v
theories/LockSpec.v
theories/UseSpec.v
theories/ExactSpec.v
theories/TornSpec.v
theories/QuotaSpec.v
theories/OpaqueSpec.v
theories/StrictSpec.v
theories/OverlapSpec.v
theories/RelocSpec.v
theories/ThmAddressing.v
theories/ThmViews.v
theories/ThmGeometry.v
theories/ThmCompose.v
theories/ThmIter.v
theories/ThmCopy.v
theories/ThmBulk.v
theories/CompareProofs.v
theories/ThmCompare.v
theories/OwnProofs.v
theories/ResizeProofs.v
theories/ThmMultiArray.v
theories/ThmChecks.v
theories/ThmHandles.v
theories/HistoryProofs.v
theories/HeapProofs.v
theories/ThmHistory.v
theories/ThmSelf.v
theories/ThmAlias.v
theories/ThmParts.v
theories/ThmFaults.v
theories/ThreadProofs.v
theories/ThmThreads.v
theories/ConstProofs.v
theories/ThmConst.v
theories/AlgProofs.v
theories/AlgPrograms.v
theories/ThmAlgorithms.v
theories/ThmLists.v
theories/CostProofs.v
theories/ThmCosts.v
theories/ThmExact.v
theories/TornProofs.v
theories/QuotaProofs.v
theories/ThmQuota.v
theories/OpaqueProofs.v
theories/ThmOpaque.v
theories/StrictProofs.v
theories/ThmStrict.v
theories/ThmUses.v
theories/ThmOverlap.v
theories/ThmTorn.v
theories/ThmRegular.v
theories/RelocProofs.v
theories/ThmReloc.v
theories/ThmStored.v
theories/SharedProofs.v
theories/ThmShared.v
theories/ConcurProofs.v
theories/FootProofs.v
theories/InterProofs.v
theories/ThmConcur.v
theories/ParProofs.v
theories/ParInter.v
theories/ParView.v
theories/ThmPar.v
theories/ThmFork.v
theories/LockProofs.v
theories/ThmLock.v
theories/ThmCalls.v
theories/Properties.v
