-Q theories Verif
theories/Base.v
theories/Bits.v
theories/BitsProofs.v
theories/PackedPtr.v
theories/PackedPtrProofs.v
theories/Builder.v
theories/BuilderProofs.v
theories/PropUtil.v
theories/Mem.v
theories/Sep.v
theories/Wp.v
theories/AlignedMalloc.v
theories/AlignedMallocProofs.v
theories/Allocators.v
theories/Contract.v
theories/Service.v
theories/LinearProofs.v
theories/BasicProofs.v
theories/PairProofs.v
theories/FreelistProofs.v
theories/OverflowProofs.v
theories/NodeProofs.v
theories/CascadingProofs.v
theories/Checked.v
theories/CheckedProofs.v
theories/Tree.v
theories/TreeProofs.v
theories/Adequacy.v
theories/Client.v
theories/ClientProofs.v
theories/NoFail.v
theories/SessionProofs.v
theories/Moves.v
theories/AllocSpec.v
theories/AllocFacts.v
theories/LinearFacts.v
theories/MallocFacts.v
theories/OverflowFacts.v
theories/MiscFacts.v
theories/QuietProofs.v
theories/AllocProofs.v
theories/PropAlloc.v
theories/Shared.v
theories/SharedProofs.v
theories/SharedSafe.v
theories/Threads.v
theories/ThreadsProofs.v
theories/Global.v
theories/ThreadsSafe.v
theories/PropShared.v
theories/Env.v
theories/EnvProofs.v
theories/Vector.v
theories/ElemProofs.v
theories/RepProofs.v
theories/VectorProofs.v
theories/Array.v
theories/ArrayProofs.v
theories/TreeService.v
theories/ContFacts.v
theories/ContExamples.v
theories/PropCont.v
theories/HeapPure.v
theories/Heap.v
theories/HeapElem.v
theories/HeapProofs.v
theories/HeapSpec.v
theories/HeapFacts.v
theories/HeapExamples.v
theories/PropHeap.v
theories/Buffer.v
theories/BufferProofs.v
theories/BufferFacts.v
theories/PropBuffer.v
theories/Transfer.v
theories/TransferProofs.v
theories/Slots.v
theories/SlotsProofs.v
theories/TransferFacts.v
theories/PropMove.v
theories/Footprint.v
theories/FootprintFacts.v
theories/PropFootprint.v
theories/Growth.v
theories/PropGrowth.v
theories/HeapSteps.v
theories/PropSteps.v
theories/Align.v
theories/PropAlign.v
theories/SharedCont.v
theories/SharedContProofs.v
theories/SharedContCases.v
theories/SharedContHeap.v
theories/SharedContFacts.v
theories/PropSharedCont.v
theories/Crowd.v
theories/CrowdProofs.v
theories/CrowdFacts.v
theories/PropCrowd.v
theories/GlobalSet.v
theories/GlobalSetFacts.v
theories/PropGlobal.v
theories/Books.v
theories/BooksProofs.v
theories/BooksVec.v
theories/BooksHeap.v
theories/BooksFacts.v
theories/ByValue.v
theories/ByValueFacts.v
theories/PropBooks.v
theories/Mixed.v
theories/MixedProofs.v
theories/MixedFacts.v
theories/PropMixed.v
theories/Throw.v
theories/ThrowProofs.v
theories/ThrowFacts.v
theories/PropThrow.v
theories/Ptr.v
theories/PtrProofs.v
theories/PtrFacts.v
theories/PropPtr.v
theories/Team.v
theories/TeamProofs.v
theories/TeamSafe.v
theories/TeamFacts.v
theories/PropTeam.v
theories/Oblivious.v
theories/ObliviousProofs.v
theories/PropOblivious.v
theories/Capacity.v
theories/CapacityProofs.v
theories/PropCapacity.v
theories/Lasting.v
theories/LastingProofs.v
theories/PropLasting.v
theories/Laws.v
theories/LawsProofs.v
theories/LawsCont.v
theories/PropLaws.v
theories/Upstream.v
theories/UpstreamProofs.v
theories/UpstreamFacts.v
theories/PropUpstream.v
theories/NullPage.v
theories/Never.v
theories/NeverFacts.v
theories/NeverShared.v
theories/StarveFacts.v
theories/OwnFacts.v
theories/PropNever.v
theories/Rename.v
theories/RenameProofs.v
theories/RenameCont.v
theories/RenameFacts.v
theories/PropRename.v
theories/Shape.v
theories/ShapeProofs.v
theories/ShapeCont.v
theories/ShapeHeap.v
theories/ShapeFacts.v
theories/PropShape.v
theories/ExactFacts.v
theories/PropExact.v
theories/Frugal.v
theories/FrugalFacts.v
theories/PropFrugal.v
theories/Owned.v
theories/OwnedProofs.v
theories/PropOwned.v
theories/Ledger.v
theories/StillFacts.v
theories/LedgerProofs.v
theories/LedgerVec.v
theories/LedgerHeap.v
theories/LedgerFacts.v
theories/PropLedger.v
theories/Noexcept.v
theories/NoexceptProofs.v
theories/PropNoexcept.v
theories/HeapPtr.v
theories/HeapPtrProofs.v
theories/HeapPtrFacts.v
theories/PropHeapPtr.v
theories/Fickle.v
theories/FickleElem.v
theories/FickleProofs.v
theories/FickleFacts.v
theories/PropFickle.v
theories/Locks.v
theories/LockMachine.v
theories/LockFacts.v
theories/LockProofs.v
theories/LockSilent.v
theories/LockErase.v
theories/LockEraseCont.v
theories/Budget.v
theories/BudgetProofs.v
theories/PropBudget.v
theories/Hold.v
theories/HoldProofs.v
theories/HoldExact.v
theories/HoldMixed.v
theories/HoldRun.v
theories/PropHold.v
theories/PropHoldExact.v
theories/PropLocks.v
