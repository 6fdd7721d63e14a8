{
 "claims": [
  {
   "property": "C01",
   "status": "proved",
   "theorems": [
    "C01_capacity_rounding"
   ],
   "note": ""
  },
  {
   "property": "C02",
   "status": "proved",
   "theorems": [
    "C02_bucket_index_in_bounds",
    "C02_bucket_index_onto",
    "C02_bucket_index_monotone"
   ],
   "note": ""
  },
  {
   "property": "C03",
   "status": "proved",
   "theorems": [
    "C03_relocation_range",
    "C03_relocation_range_tight"
   ],
   "note": ""
  },
  {
   "property": "C04",
   "status": "proved",
   "theorems": [
    "C04_resize_bounds",
    "C04_estimate_is_between_extremes",
    "C04_resized_table"
   ],
   "note": ""
  },
  {
   "property": "C05",
   "status": "proved",
   "theorems": [
    "C05_reserve_accounting",
    "C05_reserve_result"
   ],
   "note": ""
  },
  {
   "property": "C06",
   "status": "proved",
   "theorems": [
    "C06_size_hint"
   ],
   "note": ""
  },
  {
   "property": "C07",
   "status": "proved",
   "theorems": [
    "C07_hashmap_is_a_finite_map"
   ],
   "note": "One thread; keys compared by logical equality, so replace_sync (which swaps an equal key) is not modelled."
  },
  {
   "property": "C08",
   "status": "proved",
   "theorems": [
    "C08_rejected_insert",
    "C08_accepted_insert",
    "C08_index_rejected_insert",
    "C08_index_accepted_insert"
   ],
   "note": "HashMap/HashSet and HashIndex, one thread; for TreeIndex see C24, with threads C13 and C27."
  },
  {
   "property": "C09",
   "status": "proved",
   "theorems": [
    "C09_bucket_is_a_map"
   ],
   "note": ""
  },
  {
   "property": "C10",
   "status": "proved",
   "theorems": [
    "C10_len_exact",
    "C10_index_len_exact"
   ],
   "note": "HashMap/HashSet and HashIndex, after any single-threaded history; HashCache see C22."
  },
  {
   "property": "C11",
   "status": "proved",
   "theorems": [
    "C11_iter",
    "C11_iter_mut",
    "C11_retain",
    "C11_index_iter",
    "C11_index_retain"
   ],
   "note": "HashMap/HashSet and HashIndex."
  },
  {
   "property": "C12",
   "status": "partial",
   "theorems": [
    "C12_cursor_exactly_once_refuted",
    "C12_cursor_covers_partial",
    "C12_cursor_no_removal"
   ],
   "note": "REFUTED in full: after remove_and_sync empties a bucket the table may shrink by 4 or more and the cursor restarts at a merged bucket, so a kept entry is seen twice. Proved: nothing is missed, only present entries are seen, exactly the rejected entries are removed; with no removals each entry is seen exactly once."
  },
  {
   "property": "C13",
   "status": "proved",
   "theorems": [
    "C13_linearizable"
   ],
   "note": "HashMap/HashSet; sequentially consistent memory. A critical section of one bucket is one step (the bucket itself is C09). Scans (retain, iter) appear as a series of visits, as documented; closures do not panic."
  },
  {
   "property": "C14",
   "status": "proved",
   "theorems": [
    "C14_one_place",
    "C14_only_calls_change",
    "C14_dropped_empty"
   ],
   "note": "HashMap/HashSet; sequentially consistent memory."
  },
  {
   "property": "C15",
   "status": "proved",
   "theorems": [
    "C15_detached_when_done",
    "C15_once",
    "C15_handed_out_again",
    "C15_goes_on"
   ],
   "note": "Helpers give up at a lock that is not available or when the asynchronous call is dropped; a panic of the hash function in the middle of moving a bucket is not modelled."
  },
  {
   "property": "C16",
   "status": "proved",
   "theorems": [
    "C16_scan_sees"
   ],
   "note": "HashMap/HashSet: iter_sync/retain_sync style scans."
  },
  {
   "property": "C17",
   "status": "proved",
   "theorems": [
    "C17_stable_found",
    "C17_only_entry",
    "C17_answer_was_stored",
    "C17_absent",
    "C17_undisturbed_found"
   ],
   "note": "Any number of threads, one memory access of the reader and one store of a writer per step, sequential consistency, bucket arrays not freed while in use (see C19)."
  },
  {
   "property": "C18",
   "status": "partial",
   "theorems": [
    "C18_update_refuted",
    "C18_update_partial"
   ],
   "note": "REFUTED: update puts the new version into the first free slot, so a reader that is past the main block, while the clean-up before the insertion frees a slot there, finds neither version. PROVED for reads that are answered before the removal of the old version begins or called after the insertion of the new one has returned."
  },
  {
   "property": "C19",
   "status": "partial",
   "theorems": [
    "C19_array_freed_refuted",
    "C19_array_freed_fresh_refuted",
    "C19_guarded_slot"
   ],
   "note": "REFUTED for bucket arrays: the compare-exchange of dealloc_garbage compares addresses only, so a delayed thread detaches a chain younger than the epoch it checked and frees arrays that guards still protect; once with reuse of the freed memory, once without. Proved for the slots of entries (arrays not freed, sequential consistency): while a guard that was there when the entry was reachable lasts, the slot keeps it."
  },
  {
   "property": "C20",
   "status": "partial",
   "theorems": [
    "C20_iter_exactly_once",
    "C20_fused_refuted"
   ],
   "note": "REFUTED in its second half: after returning None the iterator starts again at the second bucket of the array. The first half (each entry exactly once up to the first None) is proved for every reachable state."
  },
  {
   "property": "C21",
   "status": "proved",
   "theorems": [
    "C21_lru_list_evicts_oldest",
    "C21_cache_is_lru"
   ],
   "note": "The packed list in general, and whole histories of a cache of fixed capacity (minimum = maximum): every result is that of an LRU list per bucket. Across resizes the order is lost, see C48."
  },
  {
   "property": "C22",
   "status": "proved",
   "theorems": [
    "C22_cache_history",
    "C22_put_absent",
    "C22_put_present",
    "C22_no_overflow_chain"
   ],
   "note": "One thread."
  },
  {
   "property": "C23",
   "status": "proved",
   "theorems": [
    "C23_len_within_capacity",
    "C23_capacity_within_range"
   ],
   "note": "One thread. Without the condition that no resize makes the cache smaller see C49."
  },
  {
   "property": "C24",
   "status": "proved",
   "theorems": [
    "C24_ordered_map",
    "C24_range_spec"
   ],
   "note": "One thread; any total order, any history."
  },
  {
   "property": "C25",
   "status": "proved",
   "theorems": [
    "C25_iter_complete",
    "C25_range_complete"
   ],
   "note": "One thread: the tree does not change while it is iterated."
  },
  {
   "property": "C26",
   "status": "proved",
   "theorems": [
    "C26_remove_range_exact"
   ],
   "note": "One thread."
  },
  {
   "property": "C27",
   "status": "partial",
   "theorems": [
    "C27_leaf_linearizable_refuted",
    "C27_leaf_linearizable_no_thaw_partial",
    "C27_leaf_linearizable_thaw_partial",
    "C27_leaf_scan_ordered",
    "C27_leaf_never_stuck"
   ],
   "note": "REFUTED in full: when a split freezes a leaf and is rolled back between the two halves of an insertion, the insertion reports a duplicate although the key was never there (post_insert/rollback re-read the thawed word). Proved for any number of threads and all interleavings: linearizable without thaws; with thaws linearizable up to exactly that spurious, effect-free Duplicate."
  },
  {
   "property": "C28",
   "status": "proved",
   "theorems": [
    "C28_leaf_split"
   ],
   "note": "Any leaf reachable by insertions, removals, range removals, freezes, thaws and earlier splits."
  },
  {
   "property": "C29",
   "status": "partial",
   "theorems": [
    "C29_iter_fused_refuted",
    "C29_range_fused_refuted"
   ],
   "note": "REFUTED: after None both iterators start over, and a Range then yields keys below its lower bound."
  },
  {
   "property": "C30",
   "status": "partial",
   "theorems": [
    "C30_range_bounds_refuted",
    "C30_range_bounds_partial",
    "C30_lower_bound_refuted",
    "C30_lower_bound_partial",
    "C30_two_bounds_partial"
   ],
   "note": "REFUTED for the upper bound: if the largest key of the leaf is removed between the creation of the scanner and the check of the upper bound, a key above the bound is yielded.  REFUTED for the lower bound, without any removal: if a leaf split is rolled back while a range is between the leaf and its lower half, the range yields a key below its lower bound, which is no longer checked after the first key inside.  PROVED: no key above the upper bound if no removal of a key beyond the bound takes effect while the range exists, and no key below the lower bound if no leaf split is rolled back, whatever else happens."
  },
  {
   "property": "C31",
   "status": "partial",
   "theorems": [
    "C31_remove_once_refuted",
    "C31_remove_once_partial"
   ],
   "note": "REFUTED: when cleanup_root loses the race for the root's lock, remove_if runs again and removes what another thread has inserted since. Proved in the concurrent model of C55, for all runs without that race: a removal that returned true has removed exactly one entry, with its key; one that returned false, none."
  },
  {
   "property": "C32",
   "status": "proved",
   "theorems": [
    "C32_range_contains"
   ],
   "note": ""
  },
  {
   "property": "C33",
   "status": "proved",
   "theorems": [
    "C33_map_released_once",
    "C33_collect_released_once",
    "C33_cache_released_once",
    "C33_cache_collect_released_once",
    "C33_index_released_once",
    "C33_index_not_released_early"
   ],
   "note": "HashMap/HashSet, HashCache and HashIndex, including a drop in the middle of a relocation; one thread. For HashIndex also: no entry that can be found has been dropped."
  },
  {
   "property": "C34",
   "status": "proved",
   "theorems": [
    "C34_clone",
    "C34_eq",
    "C34_cache_eq",
    "C34_tree_eq",
    "C34_tree_clone",
    "C34_index_clone",
    "C34_index_eq"
   ],
   "note": "HashMap/HashSet, HashCache, HashIndex and TreeIndex; one thread."
  },
  {
   "property": "C35",
   "status": "proved",
   "theorems": [
    "C35_from_iter",
    "C35_set_from_iter",
    "C35_serde_round_trip",
    "C35_tree_from_iter",
    "C35_tree_serde",
    "C35_index_from_iter",
    "C35_index_serde_round_trip"
   ],
   "note": "HashMap/HashSet, HashIndex and TreeIndex; HashCache see C36."
  },
  {
   "property": "C36",
   "status": "partial",
   "theorems": [
    "C36_announced_length_refuted",
    "C36_round_trip_refuted",
    "C36_round_trip_partial"
   ],
   "note": "Proved: serialization emits every entry exactly once, a round trip invents nothing, and it is exact for at most 32 entries. REFUTED: the announced length is the end of capacity_range(), and entries are lost in a round trip."
  },
  {
   "property": "C37",
   "status": "partial",
   "theorems": [
    "C37_documented_capacity_limit_refuted",
    "C37_actual_capacity_limit"
   ],
   "note": "REFUTED as documented (limit is 2^62, not 2^63); the actual limit is proved."
  },
  {
   "property": "C38",
   "status": "proved",
   "theorems": [
    "C38_runs_once",
    "C38_quiet"
   ],
   "note": "Destructors of captured values are assumed not to panic (all captured values in the crate are references, flags and array guards)."
  },
  {
   "property": "C39",
   "status": "proved",
   "theorems": [
    "C39_writer_excludes",
    "C39_not_retired",
    "C39_writes_under_lock"
   ],
   "note": "saa::Lock is assumed to be a readers-writer lock with poisoning."
  },
  {
   "property": "C40",
   "status": "proved",
   "theorems": [
    "C40_other_keys",
    "C40_tree_other_keys",
    "C40_index_other_keys"
   ],
   "note": "HashMap/HashSet, HashIndex and TreeIndex, one thread."
  },
  {
   "property": "C41",
   "status": "partial",
   "theorems": [
    "C41_capacity_range_nonempty_refuted",
    "C41_capacity_range_quiescent"
   ],
   "note": "REFUTED during a resize (the internal flag bit leaks into the range); proved while no resize is in progress."
  },
  {
   "property": "C42",
   "status": "partial",
   "theorems": [
    "C42_bucket_array_size",
    "C42_cache_bucket_array_size_refuted"
   ],
   "note": "Proved for bucket headers up to 64 bytes (all containers but HashCache); REFUTED for HashCache at 2^62."
  },
  {
   "property": "C43",
   "status": "partial",
   "theorems": [
    "C43_collect_allocation_refuted",
    "C43_collect_allocation_partial"
   ],
   "note": "REFUTED: the allocation follows the upper bound of the size hint. Proved: if the hint announces no more items than there are (an exact hint, or one without an upper bound), at most 2.5 slots per item or 64 slots are allocated."
  },
  {
   "property": "C44",
   "status": "partial",
   "theorems": [
    "C44_iter_monotone_refuted",
    "C56_iteration_order_partial"
   ],
   "note": "Without remove_range and rolled back splits the order is proved as C56_iteration_order_partial. REFUTED with it: remove_range drops whole subtrees without marking their leaves deleted, so an iterator inside does not compare keys when it moves on."
  },
  {
   "property": "C45",
   "status": "proved",
   "theorems": [
    "C45_idle_holds_nothing",
    "C45_quiet"
   ],
   "note": ""
  },
  {
   "property": "C46",
   "status": "proved",
   "theorems": [
    "C46_deadlock_free"
   ],
   "note": "User closures that run inside a bucket are assumed to return."
  },
  {
   "property": "C47",
   "status": "proved",
   "theorems": [
    "C47_no_crash"
   ],
   "note": ""
  },
  {
   "property": "C48",
   "status": "partial",
   "theorems": [
    "C48_recency_after_resize_refuted",
    "C21_cache_is_lru"
   ],
   "note": "REFUTED: relocated entries are not on the recency list, so the entries used last are evicted first. For a fixed capacity see C21_cache_is_lru."
  },
  {
   "property": "C49",
   "status": "partial",
   "theorems": [
    "C49_len_beyond_capacity_refuted",
    "C49_len_beyond_maximum_refuted",
    "C23_len_within_capacity"
   ],
   "note": "REFUTED: a shrinking resize moves the entries of several buckets into one overflow chain, and eviction takes entries from the main block only. Holds as long as the cache does not shrink (C23)."
  },
  {
   "property": "C50",
   "status": "partial",
   "theorems": [
    "C50_found_then_missed_refuted",
    "C50_found_again_partial",
    "C50_entry_stays_partial"
   ],
   "note": "REFUTED: insert stores the length after the occupied bitmap. A reader that loaded the length before the bucket ran empty finds the new entry, a later one loads the length 0. PROVED if the insertion has returned when the later read is called; and that an entry, once visible, stays in the table until somebody removes it."
  },
  {
   "property": "C51",
   "status": "proved",
   "theorems": [
    "C51_reads_go_on"
   ],
   "note": "Same model as C17."
  },
  {
   "property": "C52",
   "status": "proved",
   "theorems": [
    "C52_hashindex_is_a_finite_map"
   ],
   "note": ""
  },
  {
   "property": "C53",
   "status": "partial",
   "theorems": [
    "C53_removed_entries_pile_up_refuted",
    "C53_small_bucket_partial"
   ],
   "note": "REFUTED in general, proved for a bucket that never holds more than 31 entries while no reader holds removed entries back: it never uses more than its 32 regular slots. In general: insert cleans a bucket up only if its 32 regular slots are all occupied and one of them is removed. Removed entries in overflow links of a bucket whose regular slots hold live entries are never dropped, so inserting and removing one key makes the chain grow without bound."
  },
  {
   "property": "C54",
   "status": "partial",
   "theorems": [
    "C54_unwinding_refuted",
    "C54_lookups_survive_partial"
   ],
   "note": "REFUTED: when K::clone (or K::cmp) panics in split_leaf after the halves of the leaf were linked behind it, the ExitGuard thaws the leaf and releases the lock but leaves the halves in the list of leaves. Keys removed later come back in iterators, and after a further split an iterator yields every entry of the leaf twice. Lookups right after the unwinding are proved to be unaffected."
  },
  {
   "property": "C55",
   "status": "partial",
   "theorems": [
    "C55_treeindex_linearizable_refuted",
    "C55_treeindex_linearizable_partial",
    "C55_treeindex_linearizable_loosely_partial",
    "C55_treeindex_does_not_panic"
   ],
   "note": "REFUTED in full because of the race of C31: a removal that empties the last leaf while an insertion holds the lock of the root starts over and removes what was inserted meanwhile. Proved for any number of threads, all interleavings and all heights: linearizable for all runs without that race and without the spurious Duplicate of C27; in all runs linearizable if a removal counts as many times as it removed and a spurious Duplicate as no operation; unreachable!() is never reached. Leaf operations are atomic steps here (C27); sequential consistency; iterators, remove_range and reclamation are not part of this model."
  },
  {
   "property": "C56",
   "status": "partial",
   "theorems": [
    "C56_iteration_order_refuted",
    "C56_iteration_order_partial",
    "C56_range_order_partial",
    "C56_two_bounds_order_partial",
    "C56_first_leaf_order_partial"
   ],
   "note": "REFUTED in general, PROVED if no rollback of a leaf split gets as far as unmark (leaf_node.rs L719): then every iterator of every run, beside any number of writers that insert, remove, split and merge, yields strictly ascending keys. The refutation: rollback of a leaf split deletes the halves from the list of leaves and then removes the mark of the leaf. An iterator that has gone to the lower half and has read its entries before, and looks at the mark after that, does not skip the keys it has already yielded. Needs a full leaf node whose parent is locked by another thread (internal_node.rs L575). LinkedList of the crate sdd is modelled after its documentation."
  },
  {
   "property": "C57",
   "status": "partial",
   "theorems": [
    "C57_iteration_sound_refuted",
    "C57_iteration_complete_partial",
    "C57_iteration_sound_partial",
    "C57_iteration_sees_inserted_partial",
    "C57_iteration_skips_removed_partial",
    "C57_first_leaf_complete_partial",
    "C57_first_leaf_sound_partial",
    "C57_never_invents_partial"
   ],
   "note": "REFUTED (soundness): while an internal node is being split, between children.insert of the lower half (internal_node.rs L827-840) and full_node.swap of the higher half (L849), the parent has the lower half and still the old node. If a leaf node of the lower half is split and everything in the lower half is removed in that time, InternalNode::min (L163-195) finds no leaf in the lower half and goes on with the old node, whose leaves are frozen copies: the iterator yields entries whose removal returned before the iterator was created. PROVED, completeness and soundness, for any number of writers and iterators, all interleavings and all heights, for iterators that never go on with the next child after one without a leaf; and, for all iterators, that every yielded pair was in the index at some time. LinkedList of the crate sdd is modelled after its documentation; leaf operations are atomic steps; sequential consistency. Whether iterators that go on may miss an entry is open."
  },
  {
   "property": "C58",
   "status": "partial",
   "theorems": [
    "C58_reserved_slots_refuted",
    "C58_reserved_slots_partial"
   ],
   "note": "REFUTED: reserve_slots follows the chain of overflow buckets and extends it at its end, so it reserves nothing if there is no overflow bucket yet; the relocation, which calls itself infallible, then allocates between two entries (and extract_from has copied the entry out before it allocates). Proved for HashMap and HashCache if the bucket has an overflow bucket or needs none."
  },
  {
   "property": "C59",
   "status": "proved",
   "theorems": [
    "C59_panicking_user_code"
   ],
   "note": "One thread. Includes panics of Hash on stored keys, which the documentation excludes. Destructors do not panic; running out of memory aborts; a panic of Hash on the argument of the operation happens before the table is touched and is not modelled."
  },
  {
   "property": "C60",
   "status": "partial",
   "theorems": [
    "C60_lookup_beside_a_panic_refuted",
    "C60_insert_beside_a_panic_refuted"
   ],
   "note": "REFUTED (and not promised: the documentation demands that Hash does not panic): relocate_bucket that unwinds leaves a bucket of the old array unlocked, not killed and half empty; reader_sync and writer_sync of a thread that loaded this array before the resize lock the bucket and do not check again. The lookup misses a key that is there all the time, the insertion adds it twice. The case without panics is C07 and C59 for one thread."
  },
  {
   "property": "C61",
   "status": "partial",
   "theorems": [
    "C61_iteration_refuted",
    "C61_keyed_refuted",
    "C61_reused_address_refuted",
    "C61_async_access_partial"
   ],
   "note": "REFUTED in three ways. (1) for_each_reader_async (iter_async of HashMap, HashSet and HashCache): a task that has waited for a bucket and finds it killed holds no guard, leaves the inner loop and reads current_array.len() at L562; the array may be reclaimed. for_each_writer_async keeps the length in a local variable. (2) reader_async, writer_async, optional_writer_async: after incremental_rehash_async the argument current_array.bucket_index(hash) of dedup_bucket_async is evaluated before the reference is checked; if the task waited in the rehashing, it may hold no guard, and the array may be reclaimed once it has let go of the linked array. (3) check_ref compares addresses: with an array of another length at the address of a reclaimed one, an index computed for the longer array is used in the shorter one. What is proved: without a reclamation in these windows, no access to reclaimed memory, no access beyond an array and no failing unwrap, for any number of tasks. HashIndex is not covered (it keeps retired arrays in its own chain); entries are not modelled (whether a bucket is empty is a free choice)."
  },
  {
   "property": "C62",
   "status": "partial",
   "theorems": [
    "C62_range_sound_refuted",
    "C62_range_complete_partial",
    "C62_range_sound_partial",
    "C62_as_in_code_complete_partial",
    "C62_as_in_code_sound_partial",
    "C62_never_invents_partial"
   ],
   "note": "REFUTED (soundness) by the run of C57: a range with an upper bound yields an entry whose removal returned before the range was created. PROVED for every run, every key order and every upper bound, including the end by the bound, if the range never goes on with the next child after one without a leaf (RgModel), and the same with the search for the first leaf as in the code (LbModel, never_passes); and, for all ranges, with lower bounds too, that every yielded pair was in the index at some time."
  },
  {
   "property": "C63",
   "status": "proved",
   "theorems": [
    "C63_equal_keys",
    "C63_replace_exchanges_the_key",
    "C63_others_keep_the_key",
    "C63_cache_replace_exchanges_the_key",
    "C63_cache_replace_vacant",
    "C63_cache_others_keep_the_key"
   ],
   "note": "HashMap, HashSet and HashCache, one thread. A key is modelled as the part Hash and Eq depend on and the rest; the table of TableModel sees only the former. The asynchronous variants are not covered."
  },
  {
   "property": "C64",
   "status": "partial",
   "theorems": [
    "C64_used_survives_partial",
    "C64_read_survives_refuted",
    "C64_entry_survives_refuted"
   ],
   "note": "REFUTED for read_sync and for entry_sync on a present key: the documentation says that the list of each bucket is updated on access, but only get_sync, put of a new key and a vacant entry that is filled call update_lru_tail; an entry read last is evicted by the very next put. PROVED for these three, with 31 later uses of the bucket; the Example shows that the 32nd evicts. One thread, fixed capacity (maximum capacity not above the minimum)."
  },
  {
   "property": "C65",
   "status": "proved",
   "theorems": [
    "C65_any_searches_all",
    "C65_any_finds",
    "C65_index_any_searches_all",
    "C65_index_any_finds"
   ],
   "note": "HashMap and HashIndex, one thread. any_async is not covered."
  },
  {
   "property": "C66",
   "status": "proved",
   "theorems": [
    "C66_entry_is_a_cell",
    "C66_index_entry_is_a_cell"
   ],
   "note": "HashMap and HashIndex, one thread. The entries of HashCache, the unsafe and_modify and get_mut of HashIndex, try_entry and entry_async are not covered."
  }
 ]
}