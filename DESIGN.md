# Design of the formal model of BwTree (Rocq/Coq 8.16.1)

## What is modelled, and how

Everything lives in `rocq/theories`, namespace `Verif`.  The model is a set of
total, executable Gallina functions written function by function from
`/repo/src/*.h`; every definition cites its lines.

Model and specification files (no proofs):

| file | code | style |
|---|---|---|
| `Base.v`      | comparison helpers (`bwtree.h` 936-973), `std::lower_bound`/`upper_bound` | generic total order, `order` tactic |
| `SmallSet.v`  | `sorted_small_set.h` | list functions |
| `Bloom.v`     | `bloom_filter.h` | bit array + list |
| `Stack.v`     | `atomic_stack.h` | interleaving transition system |
| `Alloc.v`     | `AllocationMeta` (1896-2064), `PrepareThreadLocal` (372-400) | interleaving transition system |
| `Ids.v`       | node id allocation and invalidation | interleaving transition system |
| `Epoch.v`     | `BwTreeBase` GC (`JoinEpoch`, `LeaveEpoch`, `UnregisterThread`) + `AddGarbageNode`/`PerformGC` | interleaving transition system |
| `IterRef.v`   | `IteratorContext` ref counts, `ForwardIterator` copy/assign/destroy | state machine |
| `Leaf.v`      | leaf delta chains: navigation (3 overloads), consolidation, split point | functions on an inductive chain |
| `Inner.v`     | inner delta chains: navigation, BI navigation, consolidation, left sibling, split | functions on an inductive chain |
| `Tree.v`      | `Traverse*`, `LoadNodeID`, `JumpTo*`, `FinishPartialSMO`, `AdjustNodeSize`, `TryConsolidateNode`, `Insert`, `Delete`, `GetValue`, `ConditionalInsert` | programs over atomic shared-memory operations (load, CAS, allocate) |
| `Iter.v`      | `ForwardIterator`: constructors, `LowerBound`, `++`, `--`, `*`, `==`, `<`, `IsEnd`/`IsBegin`/`IsREnd` | client programs over page fetches |
| `Index.v`     | `BWTreeIndex` in `src/peloton` (`InsertEntry`, `CondInsertEntry`, `Scan`, `ScanAllKeys`, `ScanKey`) | client programs over calls of the index; Peloton's own `Compare` and `ConstructLowerBoundTuple` are parameters |
| `OldEpoch.v`  | `EpochManager` under `USE_OLD_EPOCH`: `JoinEpoch`, `LeaveEpoch`, `AddGarbageNode`, `ClearEpoch`, `CreateNewEpoch`, destructor | state machine, one step per shared access |
| `Spinlock.v`  | `benchmark/spinlock/spinlock.cpp` 22-115 | transition system with C++11 relaxed accesses and fences (modification order, views) |
| `KeyGen.v`    | `test_suite.h`: `SimpleInt64Random`, `Permutation`, `Zipfian` (theta = -1, 0, >= 40) | functions on lists and `N` |
| `BalanceSpec.v` | the counters of `mixed_test.cpp` 25-48 and `stress_test.cpp` 24-52 | counts over the visible calls; the loops of the tests are not modelled |
| `PrivateSpec.v` | what `basic_test.cpp` 24-86 rely on | predicates on the visible calls; the loops of the tests are not modelled |
| `IterTest.v` | the iterator test: `main.cpp` 245-260, `iterator_test.cpp` | client programs over calls of the index; a failed assertion of the test is the result `false` |
| `InsertTestSpec.v` | `random_pattern_test.cpp` 344-382, the insert phases of `basic_test.cpp` | predicates on the calls; the loops and the random generator are not modelled |
| `Free.v`      | `~BwTree`, `FreeNodeByNodeID`, `FreeNodeByPointer`, `FreeEpochDeltaChain` | functions on chains and table, recording every access to a node |
| `LeafSpec.v`, `InnerSpec.v`, `TreeSpec.v`, `IterSpec.v`, `FreeSpec.v`, `RoomSpec.v`, `ProgressSpec.v`, `SteadySpec.v`, `MarkerSpec.v`, `GarbageSpec.v`, `LinkSpec.v`, `FateSpec.v`, `ReleaseSpec.v`, `MomentSpec.v`, `FillSpec.v`, `IndexSpec.v` | - | specifications: contents of a chain, contents of the index, operations on a set of pairs, executions, linearizability, listings |

Proof files: `LeafProofs*.v`, `LeafWeak.v`, `Inner*Proofs*.v` (chains);
`TreeInv.v`, `TreeSafe.v`, `TreeProg*.v`, `TreeLin.v`, `TreeNot.v`, `Keeps.v`, `TreeRoom.v` (all
interleavings); `Seq*.v` (one thread: tree shape, termination, totality);
`Iter*.v` (iterators); `FreeProofs.v` (releasing memory); `Progress.v`, `Stuck.v` (calls running alone); `Steady.v` (parent snapshots); `Marker.v` (blocked and removed pages), `Garbage.v` (ownership of nodes), `Links.v`, `LinkProg.v`, `LinkExec.v` (levels, absorbed pages and separators), `Fate.v` (ownership with removed pages); `Avoid.v`, `ReleaseExec.v` (nodes in use are not released); `Moment.v`, `IterMoment.v` (moments of calls, scans under updates); `Fill.v` (executions without Delete); `IndexProofs.v` (Peloton index); `OldEpochProofs.v` (old epoch manager); `SpinlockProofs.v` (reader-writer lock); `TreeRun.v`, `TreeFast.v`, `SeqPlay.v`, `IterPlay.v`, `MomentPlay.v`, `ReleasePlay.v` (computing
concrete executions).  The theorems claimed in `MANIFEST.json` are in the
`Props*.v` files, each with its `Print Assumptions` and concrete examples.

Node chains are immutable trees (the C++ nodes are immutable once installed);
the mapping table maps node ids to a pointer and the heap maps pointers to
chains; a CAS compares pointers, not contents.  `assert` failures,
out-of-range reads, overruns of an exactly sized buffer and reads of
uninitialised members are distinct error results of the model, never default
values.  A thread that meets one stays where it is; the others go on.  So the
theorems about executions are about the calls that return, whatever the
failed threads have left behind.

The unbounded retry loops have a fuel argument; running out of it is an error
result.  A call is given an arbitrary fuel, so all finite runs of the loops
are covered; theorems about termination say that all large enough fuels give
the same result.

Keys are an arbitrary type with a boolean strict total order whose equality
checker coincides with equality; values are an arbitrary type with decidable
equality; hash functions are arbitrary functions; `KeyType{}` is an arbitrary
key `kdef`.  (Class `Params`, an argument of all final theorems.)

## Not modelled

* memory reclamation inside the tree model: nodes are never freed there
  (`Epoch.v` models the reclamation scheme, `Free.v` what it does to one chain
  and what shutdown does to the index; `GarbageSpec.v` and `FateSpec.v`
  record what an execution hands over; `ReleaseSpec.v` runs the tree together
  with the epoch manager and says which nodes are released, but the tree goes
  on as if they were not);
* the bump allocator inside the nodes is only in `Alloc.v`, `NodeID` bounds
  only in `Ids.v`;
* `DeleteEntry` of the Peloton index: it calls `DeleteExchange`, which the
  pinned `bwtree.h` does not have (nor `GetValueDereference`, taken as
  `GetValue`);
* weak memory, except for the lock of the benchmarks (`Spinlock.v`); `Upsert`-like code that is compiled
  out; the debug/print code; `GetValue`'s `std::unordered_set` is a list.

## Trusted base

* the Coq 8.16.1 kernel (and `vm_compute` for the refutation witnesses);
* axioms: see the `Print Assumptions` lines in the `Props*.v` files: all
  theorems are closed under the global context, except those whose line lists
  something else;
* the reading of the C++ code: the model is tied to `/repo` by the line
  references only, the code is not executed;
* sequentially consistent atomics (the code uses default `seq_cst`
  `std::atomic` operations on the mapping table and root id);
* pointers of live nodes are unique and not reused while a thread may still
  compare against them (this is what property C20 is about; it is proved for
  the epoch scheme separately and not re-proved inside the tree model);
* `NodeID`s are unbounded in the tree model (the code asserts `< 2^20`).

## Properties

| id | how |
|---|---|
| C01 | `TreeLin`: all interleavings of thread programs; each operation takes effect in one step; invariant over the mapping table |
| C02 | linearizability for the results, `Seq*` for termination and absence of failures; GetValue in states without a pending split of a page due to be split again (false otherwise: `PropsGrown`, a single-threaded history in which one inner page grows to four times its limit before it is split); ConditionalInsert of pairs never deleted before (`Keeps.v`: no pending delete of a pair without a Delete call) |
| C03 | false: `NavigateLeafNode` keeps search-window hints across a merge delta; refuted by a schedule; proved for keys whose page has no delta above a merge at the moment of the call |
| C04 | false: `JumpToNodeID` uses `parent_snapshot`, which read-optimised traversal never sets; refuted by a schedule |
| C05 | false: index hint of a conditional re-insert ignores a delete delta; refuted by a single-threaded run; proved if the base page does not store the pair, and for all concurrent executions that do not conditionally insert deleted pairs (`TreeRoom.v`: exact positions in all deltas ever published) |
| C06-C09 | chain-level theorems by induction over chains |
| C10, C34 | theorem on `FindSplitPoint` for all sorted lists |
| C11-C14 | inner-chain theorems |
| C15 | false (emptied first page): refuted by a single-threaded run; proved if the first page is not empty |
| C16 | any threads: from C53; that it returns, single-threaded: `IterProofs`, termination by counting the keys ahead (`IterKeys`) |
| C17, C37 | for all interleavings, from the linearizability of page fetches |
| C18 | false (BI navigation returns a deleted separator): refuted by single-threaded runs (endless retry; read outside the parent page); correct whenever it returns |
| C19 | false: refuted for the default key, proved for the others |
| C20-C22 | epoch transition system; C22 false for idle threads |
| C23 | stack transition system with ghost stack |
| C24 | counter transition system |
| C25 | false: recycling disabled; refuted |
| C26, C27 | allocator transition system |
| C28-C30 | list-level theorems |
| C31, C32 | reference-count state machine; false for move assignment / null copies |
| C33 | arithmetic on Z |
| C35 | invariant of the concurrent model: only successful Insert/Delete CAS change the abstract set |
| C36 | single-threaded: every table entry is in the tree or removed (`SeqTree`), the walk frees each entry once (`FreeProofs`). False for states left by several threads: the page of a lost split (C42) is in no parent, and ~BwTree does not free it (`PropsLost`, run on the finite-map table by `FreeFast`) |
| C38 | false: merge nodes live in the memory of the right branch, released before the merge node is destroyed; refuted for every merge and by a single-threaded run; proved for chains without merge |
| C39 | `TreeRoom.v`: a second program logic on top of the invariant of `TreeLin`, tracking which errors a program can still reach |
| C40 | false: stale root id; refuted by a long schedule, computed with `TreeFast.v` (the same steps on search trees, proved equal); `Steady.v`: a third program logic shows that it needs a root replacement during the call (no page mentions the current root id, and the root page carries no merge, removal or right neighbour) |
| C41 | false: the abort node on the parent is a lock, and GetValue never helps; refuted for every fuel (`Progress.v`: an attempt that changes nothing and aborts is repeated for ever); proved for one thread |
| C42 | false: ABA between the check of the middle child and the CAS of an inner split; a two-thread schedule ends with a removed page as leftmost child, after which calls of its keys never return although no other call is in progress (`Stuck.v`: computed on search trees; refuted for every fuel). A second cause (`PropsLost.v`): a split that every thread takes to be finished, see C54. Proved for one thread |
| C43 | false of the reverse end and of Begin() on an empty first page (reads outside the page); proved otherwise (`IterCmp.v`), over the page fetches of any execution |
| C44 | a program logic with duties (`Marker.v`): every program either holds no blocked page, or is at the CAS of the removal followed by the unblocking; all other compare-and-swaps expect an unmarked node |
| C45 | from the same logic: every compare-and-swap expects a node that is neither a marker nor a remove node |
| C46 | an execution carries a log of what was handed over and what was put on top of what (`GarbageSpec.v`); every node has one of four states (entry, below a marker, under an update, handed over), `Garbage.v`; the log of `FateSpec.v` has moreover the remove nodes handed over and the right branches of merges; it is determined by the first log and by C52 (`Fate.v`) |
| C47 | induction over executions with C35 |
| C48, C49 | `Index.v`: the Peloton wrapper as client code of calls and iterators; corollaries of C02, C15, C16, C17; two findings by small histories |
| C50 | `OldEpoch.v`: an inductive invariant over all interleavings (every count is the number of workers that joined, less MAX_THREAD_COUNT if closed); the read of `current_epoch_p` and the increment in JoinEpoch are two steps, which gives the finding |
| C51 | `Spinlock.v`: an inductive invariant (the last value counts the readers or is -1; what each holder has learnt covers the earlier sections); write_lock has a release fence where an acquire fence is needed, which gives the finding |
| C52 | `Links.v`: every page gets a level; pages of one level that are not absorbed have disjoint ranges, a child has the level below, a separator that was deleted is in no page that is not absorbed. A fourth program logic (`LinkProg.v`) shows that each compare-and-swap keeps this: a snapshot of the parent taken before the separator was deleted is stale, so its compare-and-swap fails. `LinkExec.v` puts it together with the invariants of `TreeLin.v`, `Marker.v` and `Garbage.v` |
| C53 | `Moment.v`: the step at which a call's ghost state takes effect (`TreeLin.v`) gives its moment; `IterMoment.v`: each page of a scan shows the pairs of one moment between its bounds, and successive pages leave no gap; with readers only, all moments show the same pairs (C15, C16, C18) |
| C54 | `ReleaseExec.v`: the tree (`Tree.v`) and the epoch manager (`Epoch.v`) run together. An operation is protected from what is handed over after it joined (C20); from what was handed over before, because it never loads a page taken out before it joined: a fifth program logic (`Avoid.v`) shows that it only follows children, right neighbours and routing of pages that are not removed, which lead to pages not taken out (C52), provided routing inside a page does. Backward routing can fail to, which gives one finding (`PropsRelease.v`). Forward routing can, too, after a lost split (`PropsLost.v`): an operation compares the split key with the high key of the parent as it was when read, takes the separator to be present and covers the split node with its own update, so no one posts the separator; when the left half is removed later, the parent still leads the keys of the right half to it. `ReleaseLift.v` carries any schedule of the tree over to the tree with its epoch manager, so that the long schedule is computed on search trees only |
| C55 | false: the history of `PropsGrown`, 27 000 calls run by `FastSeq.v` (`prun` on the finite-map memory of `TreeFast.v`) |
| C56 | functions on lists and `N`; permutations by transpositions; false for `Zipfian` with theta = 0 (one state in 2^48 gives n) and after `ChangeN` |
| C57 | corollary of C01: along the atomic executions the list of stored pairs is kept together with the responses not yet returned; false midway for the unsigned counter `tree_size` (C57_midway_refuted) |
| C58 | corollary of C01: the atomic steps of other threads leave a private pair alone; false for GetValue (C58_get_refuted), where only soundness holds in every execution (C58_get_own) and exactness while the page of the key has no update above a merge (`PrivateGet.v`) |
| C59 | invariant of all pages of executions without Delete (`Keeps.v`, closed under consolidation, split, remove and merge): a page with a lower bound has more than LEAF_SIZE_LOWER pairs, so only a leftmost page can be marked for removal, and well-formed merges do not occur; gives C03, C05, C15, C43, C49 and C58 without their conditions for such executions (`Fill2.v`) |
| C60, C61 | filling by induction with `seq_set`; the loops follow `walk` (C15 without deletes, C16) and single steps back (C18); what is listed is determined by being sorted and having the elements 0 .. n-1 (`IterTestProofs.v`) |
| C62 | balance of the success counters (C57) with no deletions: the stored pairs are a duplicate-free sublist of the pairs inserted, as long as the counter; GetValue is exact at a moment of the call (C03 without deletes) (`InsertTest.v`) |
| C63 | a leaf chain walk collects only values present in the page, each once, also above a pending merge (`LeafProofs2.lvalues_sound`, part of the specification of GetValue in `TreeSpec.effect` for every execution); pairs nobody inserts stay away from the moment of their Delete on (`Phantom.v`) |
| C64 | false: the schedule of C03, carried on until all calls have returned; the merged page keeps the update above the merge because the replacement by the merging thread fails and no one repeats it; sound part as in C63, exact for keys of other pages (`PropsPhantom.v`) |
