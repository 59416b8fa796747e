{"id": "C01", "title": "Insert and Delete are linearizable", "statement": "Every Insert(k,v) and Delete(k,v) that returns takes effect atomically at one instant between its call and its return: Insert returns true exactly when the pair (k,v) was absent at that instant and then adds exactly that pair; Delete returns true exactly when it was present and then removes exactly that pair; a false return changes nothing.", "quantifier": "every number of threads, every program of operations per thread, every interleaving of the atomic loads and compare-and-swaps, every key/value", "why_tests_cant": "The number of interleavings of help-along, split, merge and consolidation steps is unbounded; stress tests sample a vanishing fraction.", "anchors": ["src/bwtree.h:Insert", "src/bwtree.h:Delete", "src/bwtree.h:Traverse", "src/bwtree.h:LoadNodeID", "src/bwtree.h:FinishPartialSMO", "src/bwtree.h:AdjustNodeSize", "src/bwtree.h:InstallNodeToReplace"]}
{"id": "C02", "title": "Sequential Insert/Delete/GetValue behave as a set of pairs", "statement": "Used from one thread, any sequence of Insert, Delete and GetValue calls returns, for every call, exactly what a mathematical set of (key,value) pairs would return: Insert true iff new, Delete true iff present, GetValue the values currently paired with the key, each once.", "quantifier": "every finite sequence of calls on a fresh index, every key and value", "why_tests_cant": "Histories of arbitrary length and value-multiplicity with page splits/merges at every possible point cannot be enumerated.", "anchors": ["src/bwtree.h:Insert", "src/bwtree.h:Delete", "src/bwtree.h:GetValue", "src/bwtree.h:Traverse", "src/bwtree.h:TraverseReadOptimized"]}
{"id": "C03", "title": "GetValue is linearizable", "statement": "A GetValue(k) running concurrently with other operations returns exactly the set of values that were paired with k at some single instant between its call and its return, each value once.", "quantifier": "every interleaving of a reader with any number of writers", "why_tests_cant": "The failing schedules need a reader between two specific steps of a page merge; stress tests do not compare against an instant in time.", "anchors": ["src/bwtree.h:GetValue", "src/bwtree.h:TraverseReadOptimized", "src/bwtree.h:NavigateLeafNode"]}
{"id": "C04", "title": "GetValue never reads uninitialised traversal state", "statement": "GetValue never dereferences memory that it has not initialised, whatever other threads do to the pages it is crossing.", "quantifier": "every interleaving of one GetValue with any number of writers", "why_tests_cant": "Requires a reader delayed between loading a page and its right neighbour while that neighbour is being restructured.", "anchors": ["src/bwtree.h:TraverseReadOptimized", "src/bwtree.h:TakeNodeSnapshotReadOptimized", "src/bwtree.h:JumpToNodeID", "src/bwtree.h:FinishPartialSMO", "src/bwtree.h:IsOnLeftMostChild"]}
{"id": "C05", "title": "ConditionalInsert inserts at most one copy", "statement": "ConditionalInsert(k,v,pred) that returns true adds exactly the pair (k,v): afterwards, and after any later reorganisation, (k,v) is present exactly once, no other pair changed and no memory outside the new page is written.", "quantifier": "every index content, every history of inserts/deletes/conditional inserts, every predicate", "why_tests_cant": "The failure needs a delete of a page-resident pair, a conditional re-insert before reorganisation, and a later reorganisation.", "anchors": ["src/bwtree.h:ConditionalInsert", "src/bwtree.h:NavigateLeafNode", "src/bwtree.h:CollectAllValuesOnLeafRecursive"]}
{"id": "C06", "title": "ConditionalInsert decision", "statement": "ConditionalInsert(k,v,pred) returns true only if (k,v) was absent and no value stored under k satisfied the predicate; it reports the predicate as satisfied only if some stored value satisfied it; and if no value satisfies it and (k,v) is absent it returns true.", "quantifier": "every logical leaf page with pending updates, every key, value and predicate", "why_tests_cant": "Predicates and pending-update shapes are unbounded.", "anchors": ["src/bwtree.h:ConditionalInsert", "src/bwtree.h:NavigateLeafNode"]}
{"id": "C07", "title": "Reorganising a leaf page preserves its content", "statement": "Replacing a leaf page and its pending updates by a freshly built page keeps exactly the same set of pairs, in ascending key order, without duplicates, and keeps the page's key range and right neighbour.", "quantifier": "every leaf page reachable by inserts, deletes, splits and merges: any number of pending updates, any nesting of merges", "why_tests_cant": "Pending-update sequences and merge nestings are unbounded and the position hints interact.", "anchors": ["src/bwtree.h:CollectAllValuesOnLeaf", "src/bwtree.h:CollectAllValuesOnLeafRecursive", "src/bwtree.h:ConsolidateLeafNode"]}
{"id": "C08", "title": "Reorganised leaf page fits its allocation", "statement": "The number of pairs written into a rebuilt leaf page equals the item count recorded for the page, so the page buffer, allocated for exactly that count, is neither overrun nor left partly uninitialised.", "quantifier": "every leaf page reachable by inserts, deletes, splits and merges", "why_tests_cant": "Count drift would need rare combinations of duplicate updates.", "anchors": ["src/bwtree.h:CollectAllValuesOnLeaf", "src/bwtree.h:LeafInsertNode", "src/bwtree.h:LeafDeleteNode", "src/bwtree.h:LeafSplitNode", "src/bwtree.h:LeafMergeNode", "src/bwtree.h:ElasticNode::PushBack"]}
{"id": "C09", "title": "Point lookup on a leaf page agrees with its logical content", "statement": "Looking up (k,v) on a leaf page reports present exactly when the latest pending update for that pair is an insert or, if there is none, the page stores the pair; collecting the values of k yields each such value exactly once.", "quantifier": "every well-formed leaf page without pending updates stacked above a merge (lookup of a pair: all pages), every key and value", "why_tests_cant": "Unbounded pending-update sequences.", "anchors": ["src/bwtree.h:NavigateLeafNode"]}
{"id": "C10", "title": "Leaf split never separates equal keys, never loses pairs, and leaves both halves above the merge threshold", "statement": "When a leaf page is split, left part followed by right part is the original page, every key on the left is strictly smaller than every key on the right, the split key is the smallest right key, and both halves hold more than 32 pairs; if no such point is found next to the middle the page is left alone.", "quantifier": "every sorted page content of size at least 4, any number of duplicates per key", "why_tests_cant": "Duplicate-run layouts are combinatorial.", "anchors": ["src/bwtree.h:LeafNode::FindSplitPoint", "src/bwtree.h:LeafNode::GetSplitSibling"]}
{"id": "C11", "title": "Inner split is lossless and ordered", "statement": "Splitting an inner page at its middle puts the first half left and the second half right, all left separators are smaller than the split key which is the first separator on the right, and every search key is routed to the same child as before the split.", "quantifier": "every inner page of size at least 2, every search key", "why_tests_cant": "All sizes and keys.", "anchors": ["src/bwtree.h:InnerNode::GetSplitSibling", "src/bwtree.h:AdjustNodeSize", "src/bwtree.h:NavigateInnerNode"]}
{"id": "C12", "title": "Routing through an inner page picks the right child", "statement": "Descending through an inner page (with any pending separator inserts, deletes, splits and merges) selects the child whose separator is the greatest one not exceeding the search key, as given by the logical separator list.", "quantifier": "every well-formed inner page and every search key in its range", "why_tests_cant": "Pending separator updates and search windows derived from stored positions interact in unboundedly many ways.", "anchors": ["src/bwtree.h:NavigateInnerNode", "src/bwtree.h:LocateSeparatorByKey"]}
{"id": "C13", "title": "Reorganising an inner page preserves routing", "statement": "Rebuilding an inner page yields exactly its logical separators in ascending order, with the recorded item count, so that each search key is routed to the same child before and after.", "quantifier": "every well-formed inner page, any merge nesting", "why_tests_cant": "Unbounded delta and merge combinations.", "anchors": ["src/bwtree.h:CollectAllSepsOnInner", "src/bwtree.h:CollectAllSepsOnInnerRecursive"]}
{"id": "C14", "title": "Left-neighbour search returns the immediate left neighbour", "statement": "When a page is being merged away, the neighbour chosen to absorb it is the child whose separator immediately precedes the page's low key among the parent's logical separators.", "quantifier": "every well-formed parent page and every non-leftmost child", "why_tests_cant": "Interleavings of separator inserts and deletes newer than the base page are unbounded.", "anchors": ["src/bwtree.h:FindLeftSibling", "src/bwtree.h:JumpToLeftSibling"]}
{"id": "C15", "title": "Forward iteration from the beginning returns everything in order", "statement": "On a quiescent index, starting at Begin() and advancing until IsEnd() visits every stored pair exactly once in ascending key order, and never dereferences outside the page buffer.", "quantifier": "every history of operations leading to the index state", "why_tests_cant": "Needs specific page shapes (an emptied first page).", "anchors": ["src/bwtree.h:ForwardIterator", "src/bwtree.h:Begin", "src/bwtree.h:MoveAheadByOne", "src/bwtree.h:IsEnd"]}
{"id": "C16", "title": "Begin(key) positions at the first key not smaller", "statement": "On a quiescent index, Begin(k) points to the first stored pair whose key is not smaller than k, or is the end iterator if there is none, and advancing from it visits exactly the pairs with keys not smaller than k, ascending.", "quantifier": "every reachable quiescent index state and every start key", "why_tests_cant": "All states/keys, including pages emptied by deletes.", "anchors": ["src/bwtree.h:ForwardIterator::LowerBound", "src/bwtree.h:Begin(const KeyType &)", "src/bwtree.h:MoveAheadByOne"]}
{"id": "C17", "title": "Forward iteration never goes backwards under concurrent modification", "statement": "While other threads modify the index, the keys returned by successive advances of one forward iterator are non-decreasing and no pair is returned twice.", "quantifier": "every interleaving, every page split/merge between two advances", "why_tests_cant": "Pages can merge between two advances in any pattern.", "anchors": ["src/bwtree.h:ForwardIterator::LowerBound", "src/bwtree.h:MoveAheadByOne"]}
{"id": "C18", "title": "Backward iteration terminates at the preceding pair", "statement": "On a quiescent index, moving an iterator back by one reaches the pair immediately preceding in key order, and returns.", "quantifier": "every history of single-threaded operations", "why_tests_cant": "The failing histories need a page merge whose parent has not yet been reorganised.", "anchors": ["src/bwtree.h:MoveBackByOne", "src/bwtree.h:TraverseBI", "src/bwtree.h:NavigateInnerNodeBI", "src/bwtree.h:LocateSeparatorByKeyBI"]}
{"id": "C19", "title": "Backward separator search stays inside the page", "statement": "Choosing the child for backward iteration never reads before the first separator of the page and never interprets the unused key of the leftmost separator.", "quantifier": "every inner page, every search key, every default-constructed key value", "why_tests_cant": "Depends on the value of the default-constructed key coinciding with a page boundary.", "anchors": ["src/bwtree.h:LocateSeparatorByKeyBI"]}
{"id": "C20", "title": "Reclamation safety", "statement": "Memory of a page that was unlinked is never released while an operation that started before the unlinking is still running.", "quantifier": "every number of threads, every interleaving of operation start/end, unlinking, epoch advance and collection", "why_tests_cant": "Use-after-free needs a specific order of epoch reads on several threads.", "anchors": ["src/bwtree.h:AddGarbageNode", "src/bwtree.h:PerformGC", "src/bwtree.h:SummarizeGCEpoch", "src/bwtree.h:UpdateLastActiveEpoch", "src/bwtree.h:IncreaseEpoch", "src/bwtree.h:JoinEpoch", "src/bwtree.h:LeaveEpoch"]}
{"id": "C21", "title": "Collection releases everything eligible, exactly once", "statement": "A collection by a thread releases exactly the garbage of that thread whose deletion epoch is smaller than every registered slot's last active epoch; nothing is released twice and nothing is lost; at shutdown everything handed to reclamation is released.", "quantifier": "every sequence of garbage additions, epoch advances and collections", "why_tests_cant": "Unbounded histories; leaks and double frees only show with memory tools on the sampled run.", "anchors": ["src/bwtree.h:AddGarbageNode", "src/bwtree.h:PerformGC", "src/bwtree.h:ClearThreadLocalGarbage"]}
{"id": "C22", "title": "Reclamation makes progress", "statement": "Once every operation that was running when a page was unlinked has returned and the epoch has advanced, a collection by the owning thread releases the page.", "quantifier": "every set of registered threads, including threads that stay idle", "why_tests_cant": "Concerns what never happens; a finite test cannot observe it.", "anchors": ["src/bwtree.h:SummarizeGCEpoch", "src/bwtree.h:LeaveEpoch", "src/bwtree.h:UpdateLastActiveEpoch", "src/bwtree.h:GCMetaData"]}
{"id": "C23", "title": "Lock-free stack: each pushed item is popped at most once, last-in first-out", "statement": "With one pusher and any number of poppers, every successful pop returns the most recently pushed item not yet popped at the instant it takes effect, so no item is returned twice and none is invented; a pop that reports empty happened while the stack was empty or a push was in progress.", "quantifier": "every interleaving of one producer's pushes (single and batched) with any number of concurrent pops, any item values", "why_tests_cant": "ABA problems need exact interleavings.", "anchors": ["src/atomic_stack.h:AtomicStack::Pop", "src/atomic_stack.h:AtomicStack::SingleThreadPush", "src/atomic_stack.h:AtomicStack::SingleThreadCommitPush", "src/atomic_stack.h:VersionedPointer"]}
{"id": "C24", "title": "Page identifiers are unique", "statement": "No two calls handing out a page identifier ever return the same identifier, and never the reserved invalid one or the two initial pages' identifiers.", "quantifier": "every interleaving of identifier allocations, any number of threads", "why_tests_cant": "Races on the counter are not reproducible by tests.", "anchors": ["src/bwtree.h:GetNextNodeID", "src/bwtree.h:InitNodeLayout", "src/bwtree.h:InvalidateNodeID"]}
{"id": "C25", "title": "Page identifiers of removed pages become available again", "statement": "An identifier whose page was merged away and reclaimed is eventually handed out again, so that the fixed-size page table is not exhausted by alternating growth and shrinkage.", "quantifier": "every unbounded history of splits and merges", "why_tests_cant": "Exhaustion needs about a million splits; the table bound is only asserted.", "anchors": ["src/bwtree.h:InvalidateNodeID", "src/bwtree.h:GetNextNodeID", "src/bwtree.h:MAPPING_TABLE_SIZE"]}
{"id": "C26", "title": "Chunk allocator never hands out overlapping memory", "statement": "Two successful allocations from the same chunk never overlap, and each lies inside the chunk's usable region.", "quantifier": "every interleaving of any number of threads, any request sizes", "why_tests_cant": "Overlap needs exact interleavings of subtract and check.", "anchors": ["src/bwtree.h:AllocationMeta::TryAllocate", "src/bwtree.h:AllocationMeta::Allocate"]}
{"id": "C27", "title": "Chunk growth installs exactly one successor", "statement": "If several threads grow the same chunk concurrently they all continue on the same successor, which never changes afterwards, and every chunk allocated by a loser is released exactly once.", "quantifier": "every interleaving of growers", "why_tests_cant": "Race outcome not reproducible.", "anchors": ["src/bwtree.h:AllocationMeta::GrowChunk", "src/bwtree.h:AllocationMeta::Destroy"]}
{"id": "C28", "title": "Small sorted set: sorted, first insert wins, nothing else lost", "statement": "Inserting elements one by one yields a strictly ascending sequence that contains, for each equivalence class of elements, exactly the first one inserted; the variant without de-duplication yields a stable ascending sequence of all inserted elements; removing from the front returns them in order.", "quantifier": "every sequence of insertions, every comparator that is a strict total order", "why_tests_cant": "All sequences.", "anchors": ["src/sorted_small_set.h:SortedSmallSet::Insert", "src/sorted_small_set.h:SortedSmallSet::InsertNoDedup", "src/sorted_small_set.h:SortedSmallSet::PopFront"]}
{"id": "C29", "title": "Membership filter is exact", "statement": "The filter reports an element as contained exactly when an equal element was inserted before, for any hash function compatible with equality (collisions never cause a wrong answer).", "quantifier": "every sequence of inserts and queries, every hash function", "why_tests_cant": "Hash collisions patterns unbounded.", "anchors": ["src/bloom_filter.h:BloomFilter::Insert", "src/bloom_filter.h:BloomFilter::Exists"]}
{"id": "C30", "title": "Scratch arrays never overflow", "statement": "The fixed-size scratch arrays used while looking up or rebuilding a page, sized by the recorded number of pending updates, always have room for every element stored in them.", "quantifier": "every page built from inserts, deletes, splits, merges and rebuilds", "why_tests_cant": "Overflow of a stack array may go unnoticed on the sampled run.", "anchors": ["src/bwtree.h:NavigateLeafNode", "src/bwtree.h:CollectAllValuesOnLeaf", "src/bwtree.h:CollectAllSepsOnInner", "src/bwtree.h:FindLeftSibling", "src/bloom_filter.h", "src/sorted_small_set.h"]}
{"id": "C31", "title": "Iterator buffers are released exactly once", "statement": "Under copying, copy assignment, move assignment and destruction of iterators, each page buffer is released exactly when its last iterator goes away, never earlier and never twice, and is not leaked.", "quantifier": "every sequence of iterator copies, assignments, moves and destructions", "why_tests_cant": "Leaks are invisible to functional tests; sequences unbounded.", "anchors": ["src/bwtree.h:IteratorContext::IncRef", "src/bwtree.h:IteratorContext::DecRef", "src/bwtree.h:ForwardIterator::operator=", "src/bwtree.h:ForwardIterator::~ForwardIterator"]}
{"id": "C32", "title": "Null iterators can be copied and assigned", "statement": "Copying, assigning from, or post-incrementing an iterator obtained from NullIterator() is well defined and yields a null iterator.", "quantifier": "every iterator operation applied to a null iterator", "why_tests_cant": "Undefined behaviour may appear to work.", "anchors": ["src/bwtree.h:NullIterator", "src/bwtree.h:ForwardIterator(const ForwardIterator &)", "src/bwtree.h:ForwardIterator::operator=", "src/bwtree.h:ForwardIterator::operator++(int)"]}
{"id": "C33", "title": "Thread-local slots are aligned, disjoint and inside the allocation", "statement": "Whatever address the allocator returns, each per-thread slot starts on a 64-byte boundary, slots do not overlap, and all lie inside the allocated block.", "quantifier": "every address and every number of slots", "why_tests_cant": "All addresses.", "anchors": ["src/bwtree.h:PrepareThreadLocal"]}
{"id": "C34", "title": "A page with only one distinct key is still correct", "statement": "A page that holds arbitrarily many values of a single key is never split, and lookups, inserts and deletes on it remain exact.", "quantifier": "every number of values of one key", "why_tests_cant": "Unbounded page size.", "anchors": ["src/bwtree.h:LeafNode::FindSplitPoint", "src/bwtree.h:AdjustNodeSize"]}
{"id": "C35", "title": "Background restructuring is invisible", "statement": "No page split, merge, removal, rebuild or root change alters the set of stored pairs, at any intermediate step.", "quantifier": "every interleaving, every structural step", "why_tests_cant": "Intermediate states last nanoseconds.", "anchors": ["src/bwtree.h:AdjustNodeSize", "src/bwtree.h:FinishPartialSMO", "src/bwtree.h:ConsolidateNode", "src/bwtree.h:PostInnerInsertNode", "src/bwtree.h:PostInnerDeleteNode", "src/bwtree.h:PostLeafMergeNode"]}
{"id": "C36", "title": "Shutdown frees every page exactly once", "statement": "Destroying a quiescent index releases every reachable page and pending update exactly once.", "quantifier": "every quiescent index state reachable", "why_tests_cant": "Needs memory tooling on each state.", "anchors": ["src/bwtree.h:FreeNodeByNodeID", "src/bwtree.h:FreeNodeByPointer", "src/bwtree.h:~BwTree"]}
{"id": "C37", "title": "Backward iteration never goes forwards under concurrent modification", "statement": "While other threads modify the index, the keys read at successive backward moves of one iterator are non-increasing and no pair is read twice.", "quantifier": "every interleaving, every page split/merge between two moves", "why_tests_cant": "Pages can split and merge between two moves in any pattern.", "anchors": ["src/bwtree.h:ForwardIterator::MoveBackByOne", "src/bwtree.h:TraverseBI"]}
{"id": "C38", "title": "Reclaiming a replaced chain of updates touches no released memory", "statement": "When a replaced chain of updates is reclaimed, every node of it is destroyed once, its memory is released once, and no node is accessed after the memory holding it has been released.", "quantifier": "every chain a consolidation can replace", "why_tests_cant": "The late access goes unnoticed unless keys have destructors and the freed memory is reused or instrumented.", "anchors": ["src/bwtree.h:FreeEpochDeltaChain", "src/bwtree.h:PostLeafMergeNode", "src/bwtree.h:InlineAllocate"]}
{"id": "C39", "title": "No operation follows a missing page or mistakes the kind of a page", "statement": "Whatever operations run concurrently, no Insert, Delete, ConditionalInsert, GetValue or iterator step ever dereferences a null page pointer, follows a right-neighbour link that does not exist, or treats an inner page as a leaf page or the other way round.", "quantifier": "every execution, any number of threads, any interleaving of atomic steps", "why_tests_cant": "Whether an identifier still has a page, and of which kind, when a delayed thread follows it depends on arbitrary interleavings with splits, removals, merges and root changes.", "anchors": ["src/bwtree.h:GetNode", "src/bwtree.h:FinishPartialSMO", "src/bwtree.h:JumpToLeftSibling", "src/bwtree.h:FindLeftSibling"]}
{"id": "C40", "title": "Insert, Delete and ConditionalInsert never read an unrecorded parent", "statement": "Insert, Delete and ConditionalInsert (and the page fetches of iterators) never read the parent-page snapshot of their traversal before they have stored one there, whatever other threads do to the index in the meantime.", "quantifier": "every execution, any number of threads, any interleaving of atomic steps, every index size", "why_tests_cant": "needs a call that read the root id before the root page was split, and is resumed while the two halves of that page are being merged again, thousands of operations later; the read of an indeterminate pointer may go unnoticed", "anchors": ["src/bwtree.h:Traverse", "src/bwtree.h:TakeNodeSnapshot", "src/bwtree.h:FinishPartialSMO", "src/bwtree.h:JumpToLeftSibling"]}
{"id": "C41", "title": "A suspended thread does not block the others", "statement": "Wherever other threads are suspended inside an operation, an Insert, Delete, ConditionalInsert, GetValue or page fetch that runs alone from then on returns (the index is advertised as lock-free; this is the weakest such guarantee).", "quantifier": "every reachable state, every operation and key, every number of further steps", "why_tests_cant": "a test cannot suspend a thread between two given instructions, and no finite waiting time shows that a call never returns", "anchors": ["src/bwtree.h:PostAbortOnParent", "src/bwtree.h:RemoveAbortOnParent", "src/bwtree.h:AdjustNodeSize", "src/bwtree.h:FinishPartialSMOReadOptimized", "src/bwtree.h:TraverseReadOptimized"]}
{"id": "C42", "title": "The only call in progress returns", "statement": "Whenever exactly one call is in progress and no other thread is inside an operation, that call (Insert, Delete, ConditionalInsert, GetValue or page fetch), left to run on undisturbed, returns; and so does any call made at that moment. Unlike C41, no thread is suspended: everything the other threads started is complete.", "quantifier": "every reachable state in which one call is in progress, every operation and key, every number of further steps", "why_tests_cant": "needs a compare-and-swap that succeeds although the page was blocked, changed below and unblocked in between (ABA), at an inner page with more than 128 children; no finite waiting time shows that a call never returns", "anchors": ["src/bwtree.h:AdjustNodeSize", "src/bwtree.h:RemoveAbortOnParent", "src/bwtree.h:FindLeftSibling", "src/bwtree.h:JumpToLeftSibling"]}
{"id": "C43", "title": "Iterators compare by current key, End() last", "statement": "Any two iterators obtained from Begin(), Begin(key), ++ and -- can be compared: a == b holds exactly if both are at End() or both stand on equal keys, a < b exactly if a is not at End() and b is, or a's key is smaller than b's; neither operator reads outside the buffered pages. Advancing an iterator never makes it smaller, moving it back never makes it greater, whatever other threads do.", "quantifier": "all pairs of iterators obtained in any execution with any number of threads, all keys", "why_tests_cant": "the result depends on which pages were fetched at which moment; an out-of-bounds read of one item usually goes unnoticed", "anchors": ["src/bwtree.h:ForwardIterator::operator<", "src/bwtree.h:ForwardIterator::operator==", "src/bwtree.h:ForwardIterator::IsREnd", "src/bwtree.h:ForwardIterator::IsEnd"]}
{"id": "C44", "title": "A page blocked by a removal is changed by nobody else and restored unchanged", "statement": "From the step by which a thread blocks the parent of a page it removes (PostAbortOnParent) to the step by which it unblocks it (RemoveAbortOnParent), no step of any other thread changes that parent page's entry in the mapping table; a blocked page has exactly one owner, which unblocks it in its next step or the one after; unblocking never fails (the assertion there holds) and brings back exactly the pointer and the node from before; when no call is in progress no page is blocked.", "quantifier": "every execution with any number of threads, every page, every step of every thread", "why_tests_cant": "the page is blocked for two steps only; whether any other thread holds a snapshot with which its compare-and-swap could succeed meanwhile, or could remove the marker, depends on every snapshot taken before", "anchors": ["src/bwtree.h:PostAbortOnParent", "src/bwtree.h:RemoveAbortOnParent", "src/bwtree.h:AdjustNodeSize", "src/bwtree.h:FinishPartialSMO", "src/bwtree.h:InstallNodeToReplace"]}
{"id": "C45", "title": "A removed page is never changed again", "statement": "Once a page has been marked removed (LeafRemoveNode or InnerRemoveNode installed), its entry in the mapping table keeps pointing to that very node, whatever any thread does: nobody posts an update on it, consolidates it, blocks it or removes it again. (So the remove node loaded after the separator was deleted is the one that was installed.)", "quantifier": "every execution with any number of threads, every page, any number of further steps", "why_tests_cant": "a thread may have taken a snapshot of the page, or of its parent, at any time before the removal; whether one of its later compare-and-swaps can succeed depends on all of them", "anchors": ["src/bwtree.h:AdjustNodeSize", "src/bwtree.h:FinishPartialSMO", "src/bwtree.h:JumpToLeftSibling", "src/bwtree.h:PostInnerDeleteNode", "src/bwtree.h:InstallNodeToReplace"]}
{"id": "C46", "title": "What is unlinked is handed to reclamation exactly once and is not reachable any more", "statement": "Every node ever published belongs, at any moment, to exactly one of: the chain of one page, the chain a blocked page will be restored to, the content of a page marked removed but not yet merged, or one chain handed to the garbage collector. No chain is handed over twice, no node is in two chains handed over (which would be a double free) or in none (a leak), and no node of a chain handed over is in a page of the mapping table, except the remove node of a page whose separator has been deleted, to which no path from the root leads. The content of a page that was removed and merged is released with the merge node, its remove node once, when its separator has been deleted.", "quantifier": "every execution with any number of threads, every node", "why_tests_cant": "two threads replacing the same chain at the same moment, or a pointer that comes back (a page unblocked after a removal) are schedule dependent; a double free shows only if memory is really released in between", "anchors": ["src/bwtree.h:ConsolidateLeafNode", "src/bwtree.h:ConsolidateInnerNode", "src/bwtree.h:FindLeftSibling", "src/bwtree.h:RemoveAbortOnParent", "src/bwtree.h:PostInnerDeleteNode", "src/bwtree.h:FreeEpochDeltaChain"]}
{"id": "C47", "title": "Primary key use: at most one value per key", "statement": "If pairs are added only by ConditionalInsert with a predicate that every value satisfies (the way Peloton's CondInsertEntry protects a primary key), no key ever has two values, whatever other calls (Delete, GetValue, scans) run at the same time.", "quantifier": "every execution with any number of threads, every key", "why_tests_cant": "two insertions of one key must both test the predicate before either is installed; the windows also include every page split, merge and reorganisation in between", "anchors": ["src/bwtree.h:ConditionalInsert", "src/bwtree.h:NavigateLeafNode", "src/peloton/master/bwtree_index.cpp:CondInsertEntry"]}
{"id": "C48", "title": "CondInsertEntry returns false for a pair that cannot be inserted", "statement": "Peloton's CondInsertEntry returns true if it inserted the pair, and false, changing nothing, if the predicate is satisfied by a stored value of the key or the pair is stored already.", "quantifier": "every state of the index, every key, value and predicate", "why_tests_cant": "the failing case needs a stored pair together with a predicate that rejects all values of the key; tests use predicates that are constant or match the duplicate", "anchors": ["src/peloton/master/bwtree_index.cpp:CondInsertEntry", "src/bwtree.h:ConditionalInsert"]}
{"id": "C49", "title": "Index scans return exactly the matching entries", "statement": "Scan, ScanAllKeys and ScanKey of the Peloton index return the values of exactly the stored pairs whose key satisfies the constraints, one for each pair, in key order, and leave the index unchanged. Under concurrent modification no pair is reported twice and the order is kept.", "quantifier": "every state of the index, every set of constraints; for the second sentence every execution", "why_tests_cant": "what is missed depends on the position of keys relative to page boundaries, empty pages and an uninitialised search key", "anchors": ["src/peloton/master/bwtree_index.cpp:Scan", "src/peloton/master/bwtree_index.cpp:ScanAllKeys", "src/peloton/master/bwtree_index.cpp:ScanKey", "src/peloton/mvcc-dev-scale/bwtree_index.cpp:Scan"]}
{"id": "C50", "title": "Old epoch manager: nothing in use is released, everything is released once", "statement": "With USE_OLD_EPOCH, a page unlinked while an operation is between JoinEpoch and LeaveEpoch is not released before that operation ends; no page is released twice or without having been unlinked; once no operation is under way, two calls of PerformGarbageCollection, or the destructor, release every unlinked page. No epoch node is accessed after it was deleted and no assertion of the manager fails.", "quantifier": "every interleaving of any number (up to MAX_THREAD_COUNT) of workers and the cleaner thread", "why_tests_cant": "the windows are single instructions: a worker between reading current_epoch_p and incrementing its count while the cleaner advances, closes and deletes that epoch", "anchors": ["src/bwtree.h:EpochManager::JoinEpoch", "src/bwtree.h:EpochManager::LeaveEpoch", "src/bwtree.h:EpochManager::AddGarbageNode", "src/bwtree.h:EpochManager::ClearEpoch", "src/bwtree.h:EpochManager::CreateNewEpoch", "src/bwtree.h:EpochManager::~EpochManager"]}
{"id": "C51", "title": "Reader-writer lock of the benchmarks", "statement": "While a thread is between write_lock and write_unlock no other thread is between lock and unlock, and no access to the protected tree made between lock and unlock is a data race under the C++11 memory model. The assertions of the unlock functions never fail, the lock word stays between -1 and the number of threads, and while nobody holds the lock any thread can take it.", "quantifier": "every interleaving of any number of threads, every value the relaxed loads may return, every spurious failure of a weak compare-exchange", "why_tests_cant": "x86 hardware does not show the reordering that the relaxed accesses and the fences permit; on other machines it shows rarely", "anchors": ["benchmark/spinlock/spinlock.cpp:read_lock", "benchmark/spinlock/spinlock.cpp:read_unlock", "benchmark/spinlock/spinlock.cpp:write_lock", "benchmark/spinlock/spinlock.cpp:write_unlock"]}
{"id": "C52", "title": "A page is absorbed once, taken out of its parent once, and the pages of one depth share out the keys", "statement": "In every reachable state: at most one merge delta was ever installed for a page, and it holds the content with which that page was marked removed; at most one InnerDeleteNode was ever installed for a page, and only after its merge delta; from then on no path from the root through pages that are not removed leads to that page (so its node id can be recycled). Every page reachable from the root (children and right neighbours) has one depth, the leaves that are not removed all have the same depth, the pages of one depth that have not been absorbed have disjoint key ranges, at every depth, and no page is a child of two of them.", "quantifier": "every execution with any number of threads, every page, every depth", "why_tests_cant": "merging is helped along by every thread that meets the removed page, at the same time and with parent snapshots of different age; that the second deletion of the separator always fails depends on where the separators can have moved in between", "anchors": ["src/bwtree.h:FinishPartialSMO", "src/bwtree.h:PostLeafMergeNode", "src/bwtree.h:PostInnerMergeNode", "src/bwtree.h:PostInnerDeleteNode", "src/bwtree.h:FindLeftSibling"]}
{"id": "C53", "title": "Calls take effect at one moment; scans under concurrent updates", "statement": "Every Insert, Delete, ConditionalInsert and page fetch that returns takes effect at one moment between its beginning and its end, on the pairs stored at that moment (GetValue too, if at that moment no page has an update above a pending merge). A scan forwards from Begin() or Begin(k), or backwards from Begin(k), while other threads insert and delete: every pair it returns was stored at some time during the scan, and every pair stored during the whole scan whose key the scan has passed was returned. A pair stored when the scan begins that nobody deletes is stored during the whole scan; a pair not stored then that nobody inserts is never returned.", "quantifier": "every execution with any number of threads, every call, every scan of any length", "why_tests_cant": "the scan fetches pages one at a time, and pages are split, merged and consolidated between and during the fetches; a lost or invented pair depends on where the separators move in between", "anchors": ["src/bwtree.h:ForwardIterator::LowerBound", "src/bwtree.h:ForwardIterator::MoveAheadByOne", "src/bwtree.h:ForwardIterator::MoveBackByOne", "src/bwtree.h:Insert", "src/bwtree.h:Delete", "src/bwtree.h:GetValue"]}
{"id": "C54", "title": "No operation uses a node that has been released", "statement": "Between JoinEpoch and LeaveEpoch an operation never gets hold of a node that garbage collection has released, and no node it got hold of, nor any node below it that is released together with it, is released before the operation leaves its epoch.", "quantifier": "every execution of the index with its epoch manager: any number of threads, any threshold, any schedule of operations, epoch increments, garbage collections and calls of UpdateThreadLocal", "why_tests_cant": "a use after free needs a page to be merged, taken out and released before or while another thread reaches it, which depends on the schedule and on where stale separators lead; most often the freed memory still holds the old contents", "anchors": ["src/bwtree.h:JoinEpoch", "src/bwtree.h:LeaveEpoch", "src/bwtree.h:AddGarbageNode", "src/bwtree.h:PerformGC", "src/bwtree.h:UpdateThreadLocal", "src/bwtree.h:FreeEpochDeltaChain", "src/bwtree.h:InvalidateNodeID", "src/bwtree.h:NavigateInnerNodeBI"]}
{"id": "C55", "title": "Inner pages stay within twice their size limit", "statement": "Used from one thread, after every call each inner page has fewer than twice INNER_NODE_SIZE_UPPER_THRESHOLD children: a page that has reached the threshold is split when it is next rebuilt.", "quantifier": "every finite sequence of calls of Insert and Delete on a fresh index, every inner page", "why_tests_cant": "The split is put off only if the page's middle child is being removed at the moment the page is rebuilt; random workloads meet this once in a while but not every time the same page is rebuilt.", "anchors": ["src/bwtree.h:AdjustNodeSize", "src/bwtree.h:GetSplitSibling", "src/bwtree.h:TryConsolidateNode", "src/bwtree.h:FinishPartialSMO"]}
{"id": "C56", "title": "The key generators of the tests stay within their range", "statement": "Permutation(count, start) holds each of start, ..., start + count - 1 exactly once, whatever numbers are drawn, and every order can come out. SimpleInt64Random<lower, upper> returns numbers from lower to upper - 1. Zipfian(n, theta, seed) returns numbers below n, also after ChangeN; with theta = -1 it counts up from the seed and wraps around at n.", "quantifier": "every count, start and sequence of draws; every range, value and salt; every n, seed and number of calls", "why_tests_cant": "the generators are what the tests are made of; the failing case of Zipfian is one state in 2^48", "anchors": ["test/test_suite.h:Permutation", "test/test_suite.h:SimpleInt64Random", "test/test_suite.h:Zipfian"]}
{"id": "C57", "title": "The success counters of the tests agree with the index", "statement": "When no call is running, the number of stored pairs is the number of Insert and ConditionalInsert calls that returned success minus the number of Delete calls that returned success, overall and for every pair alone. While calls are running, the difference is explained by responses of running calls. Hence MixedTest1 leaves the index empty: if every pair is inserted by one call and some Delete of it succeeded, every Insert succeeded and exactly one Delete of each pair did. The counter tree_size of StressTest is never below zero.", "quantifier": "every number of threads, every schedule, every mix of operations, every set of pairs", "why_tests_cant": "MixedTest1 looks at the values left over after one schedule; a pair inserted twice and deleted twice, or lost and reported as deleted, needs rare interleavings with splits and merges, and StressTest prints its counter without comparing it to the index", "anchors": ["test/mixed_test.cpp:MixedTest1", "test/mixed_test.cpp:MixedGetValueTest", "test/stress_test.cpp:StressTest", "src/bwtree.h:Insert", "src/bwtree.h:ConditionalInsert", "src/bwtree.h:Delete"]}
{"id": "C58", "title": "Pairs of one thread are not disturbed by the others", "statement": "If only one thread inserts and deletes a pair, every Insert, Delete and ConditionalInsert of it returns what the earlier responses of that thread entail, and, while that thread is not in such a call, the pair is stored exactly if these responses say so. If only one thread updates a key, GetValue of that key by this thread returns exactly its own values. In the insert phase of the basic tests (only Inserts, each pair by one call) every Insert returns true and its pair stays stored.", "quantifier": "every number of threads, every schedule, whatever the other threads do to other pairs of the same pages", "why_tests_cant": "the basic tests ignore the results of Insert and Delete and look at the values only after all threads have joined; a pair that disappears while a neighbouring key is split or merged by another thread shows only in the schedules in which it is read just then", "anchors": ["test/basic_test.cpp:InsertTest1", "test/basic_test.cpp:InsertTest2", "test/basic_test.cpp:DeleteTest1", "src/bwtree.h:Insert", "src/bwtree.h:Delete", "src/bwtree.h:ConditionalInsert", "src/bwtree.h:GetValue"]}
{"id": "C59", "title": "Without deletes no page becomes small", "statement": "As long as Delete has not been called, every leaf page except the leftmost one holds more than LEAF_SIZE_LOWER pairs, no page except the last one is empty, no leaf pages are merged, and the pages given to iterators are as full. Hence an index with n leaf pages stores at least (LEAF_SIZE_LOWER + 1) * (n - 1) pairs, also with many values per key.", "quantifier": "every number of threads, every schedule, every order of keys, any number of equal keys, every state including those in the middle of splits", "why_tests_cant": "page sizes are not observable through Insert and GetValue; a split that puts too few pairs on one side needs a particular distribution of equal keys around the middle of the page, and shows only as a later merge or as slow scans", "anchors": ["src/bwtree.h:FindSplitPoint", "src/bwtree.h:GetSplitSibling", "src/bwtree.h:AdjustNodeSize"]}
{"id": "C60", "title": "The forward iterator test passes", "statement": "On a new index, after Insert of (i, i) for i = 0 .. key_num - 1, the program of the forward iterator test returns and none of its assertions fails: iterating from Begin() yields (0, 0), (1, 1), ... and ends after key_num pairs; Begin(key_num - 1) is readable, has key key_num - 1 and its successor is the end; Begin(key_num + 1) is the end.", "quantifier": "every number of keys from 1 on (any number of pages and levels), every hash function", "why_tests_cant": "the test runs one number of keys; a boundary mistake of Begin or of advancing shows only for the numbers at which a page starts exactly at the key looked for", "anchors": ["test/iterator_test.cpp:ForwardIteratorTest", "test/main.cpp", "src/bwtree.h:Begin", "src/bwtree.h:MoveAheadByOne", "src/bwtree.h:LowerBound"]}
{"id": "C61", "title": "The backward iterator test passes", "statement": "After the forward test, Begin(key_num - 1) moved back step by step yields (key_num - 1, key_num - 1), ..., (0, 0), and IsBegin() becomes true exactly on (0, 0); the program returns and none of the test's assertions fails.", "quantifier": "every number of keys, every hash function", "why_tests_cant": "the test runs one number of keys; where the page boundaries lie depends on it", "anchors": ["test/iterator_test.cpp:BackwardIteratorTest", "src/bwtree.h:MoveBackByOne", "src/bwtree.h:IsBegin"]}
{"id": "C62", "title": "The insert tests read back what was inserted", "statement": "If several threads do nothing but Insert pairs of a set of n pairs (and read), the number of successful Inserts never exceeds n, and from the moment it is n exactly these pairs are stored; every GetValue called from then on returns exactly the values of its key. So RandomInsertVerify's assertions hold after RandomInsertTest. After the insert phase of the basic tests on an empty index, GetValue of every key returns exactly four values.", "quantifier": "every number of threads, keys and pages, every schedule, including reads while other threads are still inside Insert", "why_tests_cant": "the tests are these tests; they run few schedules, with one number of threads and keys, and read only when all threads have joined", "anchors": ["test/random_pattern_test.cpp:RandomInsertTest", "test/random_pattern_test.cpp:RandomInsertVerify", "test/basic_test.cpp:InsertGetValueTest", "src/bwtree.h:Insert", "src/bwtree.h:GetValue"]}
{"id": "C63", "title": "GetValue returns stored values only; the delete tests find nothing", "statement": "Every value returned by GetValue(k) was stored under k, all of them at one moment between the call and the return, and no value is returned twice. If no value is stored under k and nobody inserts under k, GetValue(k) returns nothing. If, after the last Insert under k has ended, every value that was ever given with k is deleted (by any threads, whether or not the Delete succeeds), every GetValue(k) called after these Deletes returns nothing: DeleteGetValueTest's assertion holds after DeleteTest1 and DeleteTest2, MixedGetValueTest's after MixedTest1.", "quantifier": "every number of threads, every schedule, every number of pages, including pages with updates above an unconsolidated merge; whatever happens to other keys meanwhile", "why_tests_cant": "the tests read when all threads have joined, so never on a page that is being split or merged; a deleted value that shows up again during a merge would need that moment", "anchors": ["src/bwtree.h:GetValue", "src/bwtree.h:NavigateLeafNode", "test/basic_test.cpp:DeleteGetValueTest", "test/mixed_test.cpp:MixedGetValueTest"]}
{"id": "C64", "title": "At rest GetValue and Insert agree", "statement": "When no update is running, GetValue(k) returns exactly the values stored under k: a value v that GetValue(k) does not return can be inserted, Insert(k, v) returns true.", "quantifier": "every state reached by any calls of any threads in any schedule, after all of them have returned", "why_tests_cant": "the tests do read at rest, but a page is left in a damaging state only if an update falls between the posting of a merge and the replacement of the merged page, and no later update of that page has replaced it", "anchors": ["src/bwtree.h:GetValue", "src/bwtree.h:NavigateLeafNode", "src/bwtree.h:FinishPartialSMO", "src/bwtree.h:TryConsolidateNode"]}
