{
 "claims": [
  {
   "property": "C01",
   "status": "proved",
   "theorems": [
    "C01_linearizable"
   ],
   "note": "All executions of any number of threads running Insert, Delete, ConditionalInsert, GetValue and the iterators' page fetches; operations that return. A thread that fails an assertion stops and the others go on. GetValue is required to return stored values only, each once (exactness: C03)."
  },
  {
   "property": "C02",
   "status": "partial",
   "theorems": [
    "C02_sequential_set_partial",
    "C02_sequential_updates",
    "C02_fresh",
    "C02_sequential_set_refuted"
   ],
   "note": "Finding F19: false for GetValue (C02_sequential_set_refuted, PropsGrown.v). AdjustNodeSize puts the split of an inner page off while the first child of the right half is being removed (6642-6652); a single-threaded history of Inserts and Deletes can arrange this every time the page is rebuilt, so that the page grows to four times the threshold; when it is split at last, FinishPartialSMO leaves the second split of its left half pending, and its right half is itself due to be split: GetValue of a stored key behind it splits that page and then has to tell a parent snapshot that read-optimised traversal never wrote. Proved: unconditional for histories of Insert, Delete, forward page fetches and ConditionalInsert of pairs not named by an earlier Delete; GetValue in states in which no unfinished page split has a right half that is itself due to be split (calm), which is what fails in the witness. PropsSeq.v, proofs in Seq*.v."
  },
  {
   "property": "C03",
   "status": "partial",
   "theorems": [
    "C03_get_linearizable_partial",
    "C03_get_moment_partial",
    "C03_no_deletes",
    "C03_no_deletes_moment",
    "C03_refuted",
    "C03_values_above_merge_refuted"
   ],
   "note": "False in general: a GetValue misses a stored pair (or searches outside the page) when a page has a data update above an unconsolidated merge; execution witness. Proved for every GetValue at whose moment the page of the key is not in that state (C03_get_moment_partial, PropsMoment.v; TreeSpec.page_clean), whatever happens to other pages. In executions without calls of Delete it holds without any condition on the pages (C03_no_deletes, C03_no_deletes_moment, PropsFill.v). In all executions GetValue returns only stored values (C63)."
  },
  {
   "property": "C04",
   "status": "partial",
   "theorems": [
    "C04_refuted",
    "C02_sequential_set_refuted"
   ],
   "note": "False: execution witness in which GetValue needs a parent page it never recorded (two threads); C02_sequential_set_refuted is a witness with a single thread."
  },
  {
   "property": "C05",
   "status": "partial",
   "theorems": [
    "C05_refuted",
    "C05_conditional_insert_partial",
    "C05_execution_refuted",
    "C05_no_overrun_partial",
    "C05_pages_exact_partial",
    "C05_no_overrun_no_deletes",
    "C05_pages_no_deletes"
   ],
   "note": "False when the base page stores a pair that has a pending delete: the rebuild overruns the new page. Proved when the base page does not store the pair. Also refuted by a whole single-threaded execution. For all executions, any number of threads, in which no pair is conditionally inserted after or while Delete is called on it: nothing is ever overrun and every page rebuilds exactly, each pair once. PropsRoom.v. In executions without Delete this holds unconditionally (PropsFill2.v)."
  },
  {
   "property": "C06",
   "status": "proved",
   "theorems": [
    "C06_conditional_insert"
   ],
   "note": ""
  },
  {
   "property": "C07",
   "status": "proved",
   "theorems": [
    "C07_consolidate"
   ],
   "note": "All pages built by inserts, deletes, (safe) conditional inserts, splits, merges, rebuilds."
  },
  {
   "property": "C08",
   "status": "proved",
   "theorems": [
    "C08_item_count"
   ],
   "note": ""
  },
  {
   "property": "C09",
   "status": "proved",
   "theorems": [
    "C09_lookup",
    "C09_values"
   ],
   "note": ""
  },
  {
   "property": "C10",
   "status": "proved",
   "theorems": [
    "C10_split"
   ],
   "note": ""
  },
  {
   "property": "C11",
   "status": "proved",
   "theorems": [
    "C11_split",
    "C11_same_routing"
   ],
   "note": "All base pages built by the model; routing equality for every search key."
  },
  {
   "property": "C12",
   "status": "proved",
   "theorems": [
    "C12_routing",
    "C12_routing_sound"
   ],
   "note": "Exact routing for every page whose pending deltas recorded true neighbours when posted; without that assumption the child chosen still never starts above the key."
  },
  {
   "property": "C13",
   "status": "proved",
   "theorems": [
    "C13_consolidate",
    "C13_same_routing"
   ],
   "note": ""
  },
  {
   "property": "C14",
   "status": "proved",
   "theorems": [
    "C14_left_sibling"
   ],
   "note": "Pages with a merge delta are rebuilt first by the code; the theorem covers that path too."
  },
  {
   "property": "C15",
   "status": "partial",
   "theorems": [
    "C15_scan_partial",
    "C15_scan_threads_partial",
    "C15_no_deletes",
    "C15_no_deletes_threads",
    "C15_begin_readable",
    "C15_refuted"
   ],
   "note": "False: after the first page was emptied by deletes Begin() stands outside its page buffer although pairs are stored (single-threaded run). Proved for single-threaded histories when Begin() can be read or is the end iterator. After calls by any threads: C15_scan_threads_partial. PropsScan.v, PropsMoment.v. Without calls of Delete it holds without this condition: C15_no_deletes (one thread, Begin() and the scan terminate), C15_no_deletes_threads, C15_begin_readable (PropsFill.v)."
  },
  {
   "property": "C16",
   "status": "partial",
   "theorems": [
    "C16_begin_key",
    "C16_scan",
    "C16_begin_key_partial",
    "C16_scan_partial"
   ],
   "note": "Where Begin(k) points and what the scan returns: proved in every state left by any calls of any threads, finished or not, while only readers run (C16_begin_key, C16_scan, PropsMoment.v). That Begin(k) and the scan do return: proved for single-threaded histories (PropsScan.v); in general it is false by C42."
  },
  {
   "property": "C17",
   "status": "proved",
   "theorems": [
    "C17_no_step_back",
    "C17_no_step_back_begin"
   ],
   "note": "All interleavings; the iterator is a client that calls the index for each page. PropsScan.v."
  },
  {
   "property": "C18",
   "status": "partial",
   "theorems": [
    "C18_step_back_partial",
    "C18_step_back_threads_partial",
    "C18_fresh_iterators",
    "C18_refuted",
    "C18_out_of_bounds_refuted"
   ],
   "note": "False: after a merge whose parent is not reorganised, moving back restarts for ever, or reads outside the parent page (single-threaded runs). Proved: whenever it returns, it stands on the last pair before. After calls by any threads: C18_step_back_threads_partial. PropsScan.v, PropsMoment.v."
  },
  {
   "property": "C19",
   "status": "partial",
   "theorems": [
    "C19_refuted",
    "C19_backward_search_partial"
   ],
   "note": "False of the code: the unused first key is compared, so the default-constructed key hits the assertion. Holds for every other key."
  },
  {
   "property": "C20",
   "status": "proved",
   "theorems": [
    "C20_safe",
    "C20_registered",
    "C20_no_bad_access"
   ],
   "note": "Epoch.v: all interleavings of any number of threads, with UnregisterThread. C20_registered is the claim word for word for an operation of a thread that has not unregistered; C20_safe covers threads that unregistered and came back, once JoinEpoch has written their slot (before that they have read nothing of the tree; C20_unregistered_join shows that the page may then be released)."
  },
  {
   "property": "C21",
   "status": "proved",
   "theorems": [
    "C21_collection_exact",
    "C21_accounting",
    "C21_shutdown"
   ],
   "note": ""
  },
  {
   "property": "C22",
   "status": "partial",
   "theorems": [
    "C22_refuted",
    "C22_progress_partial"
   ],
   "note": "False as stated: a registered thread that runs no operation blocks all reclamation. Proved when every thread has unregistered or has announced a later epoch."
  },
  {
   "property": "C23",
   "status": "proved",
   "theorems": [
    "C23_linearizable",
    "C23_conservation"
   ],
   "note": "One pusher, any number of poppers."
  },
  {
   "property": "C24",
   "status": "proved",
   "theorems": [
    "C24_unique"
   ],
   "note": ""
  },
  {
   "property": "C25",
   "status": "partial",
   "theorems": [
    "C25_refuted",
    "C25_exhaustion_refuted"
   ],
   "note": "The code never recycles identifiers, the claim is refuted."
  },
  {
   "property": "C26",
   "status": "proved",
   "theorems": [
    "C26_disjoint",
    "C26_region",
    "C26_no_wrap"
   ],
   "note": ""
  },
  {
   "property": "C27",
   "status": "proved",
   "theorems": [
    "C27_grow_continues",
    "C27_successor_stable",
    "C27_released_once"
   ],
   "note": ""
  },
  {
   "property": "C28",
   "status": "proved",
   "theorems": [
    "C28_sorted_set",
    "C28_sorted_multiset",
    "C28_pop_front"
   ],
   "note": ""
  },
  {
   "property": "C29",
   "status": "proved",
   "theorems": [
    "C29_filter_exact"
   ],
   "note": ""
  },
  {
   "property": "C30",
   "status": "proved",
   "theorems": [
    "C30_leaf_scratch",
    "C30_inner_scratch"
   ],
   "note": "Leaf and inner pages. Pages corrupted by the finding in C05_refuted are outside the built pages."
  },
  {
   "property": "C31",
   "status": "partial",
   "theorems": [
    "C31_never_early",
    "C31_held_is_live",
    "C31_leak_refuted",
    "C31_no_leak_partial"
   ],
   "note": "Move assignment onto a non-null iterator leaks its page buffer (refuted); without it no leak."
  },
  {
   "property": "C32",
   "status": "partial",
   "theorems": [
    "C32_refuted",
    "C32_refuted_reachable",
    "C32_null_ok_partial"
   ],
   "note": "Copying/assigning/post-incrementing a null iterator dereferences null (refuted)."
  },
  {
   "property": "C33",
   "status": "proved",
   "theorems": [
    "C33_slots"
   ],
   "note": ""
  },
  {
   "property": "C34",
   "status": "proved",
   "theorems": [
    "C34_single_key_page",
    "C34_single_key_exact"
   ],
   "note": ""
  },
  {
   "property": "C35",
   "status": "proved",
   "theorems": [
    "C35_restructuring_invisible"
   ],
   "note": "Every step of every thread in every execution."
  },
  {
   "property": "C36",
   "status": "partial",
   "theorems": [
    "C36_shutdown_partial",
    "C36_shutdown_refuted"
   ],
   "note": "Single-threaded histories of Insert, Delete, ConditionalInsert and GetValue (restricted as in C02) and forward scans. False for quiescent states left by several threads: C36_shutdown_refuted gives an execution of two threads after which a page holding stored pairs, whose split was never reported to the parent, is neither destroyed nor released by ~BwTree. Memory already handed to the garbage lists is outside the statement. PropsFree.v, PropsLost.v."
  },
  {
   "property": "C37",
   "status": "proved",
   "theorems": [
    "C37_no_step_ahead"
   ],
   "note": "All interleavings. PropsScan.v."
  },
  {
   "property": "C38",
   "status": "partial",
   "theorems": [
    "C38_refuted",
    "C38_merge_unsafe",
    "C38_reclaim_partial"
   ],
   "note": "False: the merge node is destroyed after the memory it is in has been released. Refuted for every chain with a merge on top, reachable with one thread; proved for chains without a merge. PropsFree.v."
  },
  {
   "property": "C39",
   "status": "proved",
   "theorems": [
    "C39_no_null_page"
   ],
   "note": "All executions. Other failures (assertions, uninitialised parent, search window outside a page) are not excluded, see C03, C04 and C40. PropsRoom.v."
  },
  {
   "property": "C40",
   "status": "partial",
   "theorems": [
    "C40_refuted",
    "C40_root_moved_partial"
   ],
   "note": "False: a call whose root id is out of date treats that page as the root; if the page carries a merge, FinishPartialSMO reads the parent snapshot that Traverse never wrote. Refuted by an execution of 8400 inserts and 2427 deletes. Proved for all executions: it happens only in a call during which the root page is replaced. PropsStale.v."
  },
  {
   "property": "C41",
   "status": "partial",
   "theorems": [
    "C41_refuted",
    "C41_runs_alone_partial"
   ],
   "note": "False: while one thread is suspended between PostAbortOnParent and RemoveAbortOnParent, updates of the small page retry for ever; while a removed page is not yet merged, GetValue of its keys retries for ever (it does not help). Proved for single-threaded histories (restricted as in C02). PropsProgress.v."
  },
  {
   "property": "C42",
   "status": "partial",
   "theorems": [
    "C42_refuted",
    "C42_lost_refuted",
    "C42_one_thread_partial"
   ],
   "note": "False: ABA on the pointer of an inner page. AdjustNodeSize checks that the middle child is not removed and then splits by CAS; in between another thread can post the abort node on the page, remove that child and restore the page's old pointer (RemoveAbortOnParent). The removed child becomes the leftmost child of the new page, where JumpToLeftSibling always aborts: all calls of its keys and of its right neighbour's keys retry for ever, with no thread suspended. Second cause (F18, C42_lost_refuted, PropsLost.v): a lost split, see C54; no call is in progress and no call of a stored key returns. Proved for single-threaded histories, at every point of the call. PropsStuck.v."
  },
  {
   "property": "C43",
   "status": "partial",
   "theorems": [
    "C43_refuted",
    "C43_compare_partial",
    "C43_moves_partial",
    "C43_compare_no_deletes",
    "C43_read_no_deletes"
   ],
   "note": "False of the reverse end (-- from Begin()): both operators check IsEnd() but not IsREnd() and read the item before the first; and of Begin() when the first page is empty while others are not (see C15): they read behind the last item. Proved for all other iterators obtained in any execution, and moving is monotone. PropsCmp.v. In executions without Delete it holds of all iterators but the reverse end (PropsFill2.v)."
  },
  {
   "property": "C44",
   "status": "proved",
   "theorems": [
    "C44_one_owner",
    "C44_nobody_else",
    "C44_restored",
    "C44_unblock_succeeds",
    "C44_quiet"
   ],
   "note": "For all executions of the tree model (MarkerSpec.v, Marker.v). The marker's memory is never reused in the tree model (reclamation is separate, Epoch.v). PropsMarker.v."
  },
  {
   "property": "C45",
   "status": "proved",
   "theorems": [
    "C45_removed_stays",
    "C45_removed_not_blocked"
   ],
   "note": "For all executions of the tree model, in which page ids are not recycled (see Ids.v). PropsGarbage.v, proof in Marker.v."
  },
  {
   "property": "C46",
   "status": "proved",
   "theorems": [
    "C46_once",
    "C46_one_chain",
    "C46_not_in_pages",
    "C46_unreachable",
    "C46_goes_real",
    "C46_goes_complete",
    "C46_remove_nodes",
    "C46_pages_disjoint"
   ],
   "note": "For all executions of the tree model, removed and merged pages included. PropsLinks.v, FateSpec.v, Fate.v (on top of Garbage.v and Links.v). A node is handed over in the step that unlinks it; nodes that lost their compare-and-swap and were never published are not in the heap of the model. C46_pages_disjoint (PropsGarbage.v) is about the chains of GarbageSpec.v."
  },
  {
   "property": "C47",
   "status": "proved",
   "theorems": [
    "C47_unique"
   ],
   "note": "All executions. PropsIndex.v."
  },
  {
   "property": "C48",
   "status": "partial",
   "theorems": [
    "C48_cond_insert_partial",
    "C48_refuted"
   ],
   "note": "False: if the pair is stored and no value of the key satisfies the predicate, ConditionalInsert returns false with predicate_satisfied == false and CondInsertEntry's assertion (121) fails. Proved, for single-threaded histories restricted as in C02: that is the only case in which it does not answer correctly. PropsIndex.v."
  },
  {
   "property": "C49",
   "status": "partial",
   "theorems": [
    "C49_scan_partial",
    "C49_scan_ptr_partial",
    "C49_scan_all_partial",
    "C49_scan_mvcc_partial",
    "C49_scan_concurrent",
    "C49_mvcc_refuted",
    "C49_scan_all_refuted",
    "C49_scan_all_no_deletes",
    "C49_scan_ptr_no_deletes",
    "C49_scan_no_deletes"
   ],
   "note": "False of mvcc-dev-scale: index_key is given a value for point queries only, so a range scan starts at an unset key and misses what is below it. False of unbounded scans (ScanAllKeys, and Scan without an equality on the leading column) when the first page is empty, see C15. Proved otherwise for single-threaded histories restricted as in C02, for whatever constraints ConstructLowerBoundTuple and Compare (Peloton's, not in this repository) stand for. PropsIndex.v. Without deletes the unbounded scans are exact as well (PropsFill2.v)."
  },
  {
   "property": "C50",
   "status": "partial",
   "theorems": [
    "C50_safe_partial",
    "C50_once",
    "C50_access_partial",
    "C50_released",
    "C50_destroy",
    "C50_join_refuted"
   ],
   "note": "False in one point: JoinEpoch reads current_epoch_p and increments the count of that epoch in two steps; if the cleaner runs twice in between, the epoch has been deleted. All other parts proved for all executions of a model in which a deleted epoch keeps its contents; no other access to a deleted epoch is possible. Needs at most MAX_THREAD_COUNT workers. PropsOldEpoch.v."
  },
  {
   "property": "C51",
   "status": "partial",
   "theorems": [
    "C51_exclusion",
    "C51_assertions",
    "C51_range",
    "C51_reader",
    "C51_writer_refuted",
    "C51_repaired",
    "C51_available"
   ],
   "note": "False in one point: write_lock ends with a release fence (spinlock.cpp 88) and has no acquire, so a writer's accesses race with those of the section before it, although exclusion holds (refuted for write after write and write after read). With an acquire fence there is no race (C51_repaired). Everything else proved for all executions of a view-based model of the C++11 rules for one atomic variable and fences. PropsSpinlock.v."
  },
  {
   "property": "C52",
   "status": "proved",
   "theorems": [
    "C52_merged_once",
    "C52_merge_content",
    "C52_cut_once",
    "C52_cut_merged",
    "C52_cut_unreachable",
    "C52_depth",
    "C52_disjoint",
    "C52_one_parent",
    "C52_leaf_depth"
   ],
   "note": "For all executions of the tree model, in which page ids are not recycled. PropsLinks.v, LinkSpec.v; proofs in Links.v, LinkProg.v, LinkExec.v."
  },
  {
   "property": "C53",
   "status": "proved",
   "theorems": [
    "C53_moment",
    "C53_scan",
    "C53_scan_begin",
    "C53_scan_back",
    "C53_stays",
    "C53_stays_out"
   ],
   "note": "For all executions; a state is recorded after every step. Scans and calls that return. PropsMoment.v, MomentSpec.v; proofs in Moment.v, IterMoment.v."
  },
  {
   "property": "C54",
   "status": "partial",
   "theorems": [
    "C54_safe_partial",
    "C54_refuted",
    "C54_forward_refuted"
   ],
   "note": "Finding F17: false. Backward iteration goes through an InnerDeleteNode to the page it deletes (NavigateInnerNodeBI compares with the next key strictly, so a search for exactly the next key falls through); if the page has been released since (e.g. by UpdateThreadLocal, which the test suite calls between its phases), the load gives a released node (in the code: nullptr, after InvalidateNodeID). Proved for all executions in whose states no page routes the key of a running operation to a page taken out. Finding F18 (C54_forward_refuted, PropsLost.v): a plain GetValue, Insert or Delete can load a released page as well: FinishPartialSMO (6193-6218) compares the split key with the high key of an outdated parent snapshot and ignores the split, and the thread's own update hides the split node from all others, so that the separator is never posted; after the left half has been removed the parent leads the keys of the right half to the removed page. Missing: the condition on routing, which is false in general. PropsRelease.v, ReleaseSpec.v; proofs in Avoid.v, ReleaseExec.v."
  },
  {
   "property": "C55",
   "status": "partial",
   "theorems": [
    "C55_fanout_refuted"
   ],
   "note": "Finding F19: false. The split of an inner page is put off while the first child of the right half is being removed; a single-threaded history of Inserts and Deletes repeats this at every rebuild of one page, which then has more than three times as many separators as the splitting threshold. PropsGrown.v, run on the finite-map memory of TreeFast.v by FastSeq.v."
  },
  {
   "property": "C56",
   "status": "partial",
   "theorems": [
    "C56_permutation",
    "C56_permutation_any",
    "C56_simple",
    "C56_zipf_up",
    "C56_zipf_range_partial",
    "C56_zipf_refuted",
    "C56_change_refuted"
   ],
   "note": "Finding F20: Zipfian with theta = 0 can return n: FastRandD divides by 2^48 - 1, so the state 2^48 - 1 gives 1.0 (C56_zipf_refuted, and C56_zipf_double with the rounding of IEEE doubles); with theta = -1 the first number after ChangeN to a smaller n can be n or more. Missing: 0 < theta < 1 (approximated powers), rounding in C56_zipf_range_partial. KeyGen.v, KeyGenProofs.v, PropsKeyGen.v."
  },
  {
   "property": "C57",
   "status": "partial",
   "theorems": [
    "C57_balance",
    "C57_tree_size",
    "C57_pair",
    "C57_running",
    "C57_mixed_test",
    "C57_midway_refuted"
   ],
   "note": "Everything but the last sentence is proved for every execution. The last sentence holds when no call is running (C57_tree_size) and is false otherwise (finding F21, C57_midway_refuted): a Delete can return before the Insert whose pair it removes, so the unsigned counter wraps for a while. The loops around the calls in the tests are not modelled; C57_mixed_test takes their outcome (one call per pair, a successful Delete per pair) as hypotheses, met in C57_mixed_example. BalanceSpec.v, Balance.v, PropsBalance.v."
  },
  {
   "property": "C58",
   "status": "partial",
   "theorems": [
    "C58_private_responses",
    "C58_private_stored",
    "C58_insert_test",
    "C58_get_own",
    "C58_get_partial",
    "C58_get_no_deletes",
    "C58_get_refuted"
   ],
   "note": "Updates and the insert phase: proved for every execution. The sentence about GetValue is false (C58_get_refuted, a consequence of finding F2: a page with an update above an unconsolidated merge); C58_get_partial proves it for executions in which the page of the key is never in this state; that no other values are returned holds in every execution (C58_get_own, PrivateGet.v). PrivateSpec.v, Private.v, PropsPrivate.v. Without calls of Delete it always holds (C58_get_no_deletes, PropsFill.v)."
  },
  {
   "property": "C59",
   "status": "proved",
   "theorems": [
    "C59_fill",
    "C59_no_merge",
    "C59_pages",
    "C59_space"
   ],
   "note": "Executions with any number of threads in which Delete is not called. Both halves of a split have more than LEAF_SIZE_LOWER pairs, whatever the keys (Fill.split_point_sizes). FillSpec.v, Fill.v, PropsFill.v."
  },
  {
   "property": "C60",
   "status": "proved",
   "theorems": [
    "C60_forward",
    "C60_contents"
   ],
   "note": "Model of main.cpp 245-260 and iterator_test.cpp 16-46 (IterTest.v), long keys and values, one thread, total. IterTestProofs.v, PropsIterTest.v."
  },
  {
   "property": "C61",
   "status": "partial",
   "theorems": [
    "C61_backward_partial",
    "C61_one_key_refuted"
   ],
   "note": "Whenever the program returns, with two keys or more, no assertion of the tests fails. Missing: that moving back returns (C18). For one key the test's own assertion IsBegin() == false fails (C61_one_key_refuted). PropsIterTest.v."
  },
  {
   "property": "C62",
   "status": "proved",
   "theorems": [
    "C62_counter",
    "C62_read_back",
    "C62_random_insert_verify",
    "C62_insert_get",
    "C62_insert_get_value_test"
   ],
   "note": "All executions in which only Insert and reads (C62_counter, C62_read_back, C62_random_insert_verify) or anything but Delete (C62_insert_get, C62_insert_get_value_test) is called; GetValues that return. InsertTestSpec.v, InsertTest.v, PropsInsertTest.v."
  },
  {
   "property": "C63",
   "status": "proved",
   "theorems": [
    "C63_only_stored",
    "C63_absent",
    "C63_delete_get",
    "C63_delete_get_value_test",
    "C63_mixed_get_value_test"
   ],
   "note": "All executions; about GetValues that return (C03's finding concerns calls that miss values or fail). The specification of GetValue in TreeSpec.effect, also with full = false (C01_linearizable, C53_moment), demands stored values only, each once. LeafProofs2.lvalues_sound, Phantom.v, PropsPhantom.v."
  },
  {
   "property": "C64",
   "status": "partial",
   "theorems": [
    "C64_at_rest_partial",
    "C64_at_rest_refuted",
    "C64_out_of_range_refuted"
   ],
   "note": "False (F22, a lasting form of F2): when the thread that merges a page cannot replace it because another thread has inserted into it, both return and the update stays above the merge; afterwards, with no call running, GetValue of a stored pair returns nothing and Insert of the pair returns false; for another stored pair it searches with the start behind the end (C64_out_of_range_refuted). Proved: while nobody updates, GetValue returns stored values only, and all of them if the page of the key is not in that state. PropsPhantom.v."
  }
 ]
}