{"id": "C01", "title": "Capacity rounding of hash containers", "statement": "For a requested capacity c, a freshly created hash container whose table is allocated has a capacity that is a power of two, at least 64, at least min(c, 2^62), and less than twice max(c, 64); no arithmetic overflow occurs on the way.", "quantifier": "for every requested capacity representable in a 64-bit usize", "why_tests_cant": "2^64 inputs; boundary values near 2^62 and 2^63 cannot be allocated by a test at all.", "anchors": ["src/hash_table/bucket_array.rs: BucketArray::new, num_slots, minimum_capacity", "src/hash_map.rs: with_capacity_and_hasher"]}
{"id": "C02", "title": "Bucket index is always in bounds and monotone in the hash", "statement": "For every table size the container can have, and for every 64-bit hash produced by the user's hasher, the bucket chosen for a key is a valid bucket (bucket_index(key) < capacity()/32), every bucket is reachable by some hash, and a larger hash never maps to a smaller bucket.", "quantifier": "for every table size reachable through allocation or resizing and every 64-bit hash value", "why_tests_cant": "Out-of-bounds would be undefined behaviour on one hash in 2^64; tests only sample hashes.", "anchors": ["src/hash_table/bucket_array.rs: bucket_index, len, new", "src/hash_map.rs: bucket_index"]}
{"id": "C03", "title": "Resizing keeps every key inside the bucket range it is relocated to", "statement": "When a table is grown, shrunk or rebuilt at the same size, a key stored in bucket i of the old table belongs, in the new table, to a bucket of the contiguous range associated with i; and the set of old buckets associated with a new bucket contains every old bucket whose keys may belong to it, so that emptying exactly that set before using the new bucket can never leave a key behind.", "quantifier": "for every pair of table sizes and every 64-bit hash", "why_tests_cant": "Quantifies over all hash values and size pairs; a single misplaced key is a silently lost entry.", "anchors": ["src/hash_table.rs: from_index_to_range, dedup_bucket_sync, relocate_bucket, LockedBucket", "src/hash_table/bucket_array.rs: bucket_index"]}
{"id": "C04", "title": "Automatic resizing respects the minimum and maximum capacity", "statement": "Whenever a hash container decides to resize itself, the new capacity is a power of two, never exceeds the maximum capacity of the container, never drops below the currently reserved minimum capacity nor below 64, growing strictly increases and shrinking strictly decreases the capacity; and the capacity reported never leaves the interval between 0 and the maximum.", "quantifier": "for every current capacity, every sampled estimate of the number of entries, every reserved minimum and every maximum capacity", "why_tests_cant": "The decision depends on sampled occupancy under concurrency; tests hit only a few estimates, never the extreme sizes.", "anchors": ["src/hash_table.rs: try_resize, try_enlarge, try_shrink, sample", "src/hash_map.rs: capacity, capacity_range", "src/hash_cache.rs: with_capacity_and_hasher"]}
{"id": "C05", "title": "Reserve guards restore the minimum capacity", "statement": "reserve(n) either returns nothing and leaves the reserved minimum capacity unchanged, or raises it by exactly n until the returned guard is dropped; after any interleaving of successful reserves and drops of their guards, the lower end of capacity_range equals the initial value plus the sum of the live guards, never overflows and never exceeds the maximum capacity.", "quantifier": "for every sequence (interleaving across threads) of reserve calls and guard drops, with every amount including 0 and usize::MAX", "why_tests_cant": "Needs arbitrary numbers of overlapping guards and amounts near 2^62/2^64.", "anchors": ["src/hash_table.rs: reserve_capacity, MAXIMUM_CAPACITY_LIMIT, RESIZING", "src/hash_map.rs: reserve, Reserve::drop, capacity_range"]}
{"id": "C06", "title": "Construction from an iterator size hint", "statement": "The initial capacity derived from an iterator's size hint is at least the hinted lower bound scaled so that the table is not more than about 7/8 full, and the computation neither overflows nor exceeds the maximum capacity, for any (possibly lying) size hint.", "quantifier": "for every pair (lower bound, optional upper bound) of 64-bit values", "why_tests_cant": "Lying iterators can return any pair; tests use honest short iterators.", "anchors": ["src/hash_table.rs: capacity_from_size_hint", "src/hash_map.rs: FromIterator"]}
{"id": "C07", "title": "HashMap behaves as a finite map", "statement": "Any sequence of insert, upsert, update, remove, remove_if, replace, read, contains and entry operations on a HashMap returns exactly the results that the same sequence returns on a mathematical finite map, whatever the hash function (including a constant one), and however many resizes and partial (incremental) relocations happen in between.", "quantifier": "for every finite sequence of operations, every hash function, every equality on keys and every point at which resizing and incremental rehashing steps are taken", "why_tests_cant": "Unbounded histories, adversarial hash functions and all placements of resize steps.", "anchors": ["src/hash_map.rs: insert_sync, upsert_sync, update_sync, remove_sync, remove_if_sync, replace_sync, read_sync, contains_sync, entry_sync", "src/hash_table.rs: writer_sync, reader_sync, relocate_bucket", "src/hash_table/bucket.rs: insert, remove, search_entry, get_entry_ptr"]}
{"id": "C08", "title": "A rejected insert changes nothing and hands the pair back", "statement": "insert of a key that is already present returns Err with exactly the supplied key and value, and leaves the stored key, the stored value and every other entry unchanged; insert of an absent key succeeds and adds exactly that entry. insert never fails for any other reason.", "quantifier": "for every container state and every key and value", "why_tests_cant": "Must hold for every reachable state including full buckets, overflow chains and a table in the middle of a resize.", "anchors": ["src/hash_map.rs: insert_sync", "src/hash_index.rs: insert_sync", "src/hash_set.rs: insert_sync", "src/tree_index.rs: insert_sync"]}
{"id": "C09", "title": "The partial-hash filter and overflow chain never hide a key", "statement": "A lookup finds a key if and only if an equal key is stored, for every combination of hash collisions: keys with equal hashes, equal low 8 bits, equal bucket, and any number of entries in the same bucket (so that the bucket overflows into any number of extra blocks), in any order of insertions and removals.", "quantifier": "for every bucket history and every hash assignment consistent with key equality", "why_tests_cant": "Adversarial collision patterns with chains of unbounded length cannot be enumerated.", "anchors": ["src/hash_table/bucket.rs: search_entry, search_data_block, get_entry_ptr, insert, insert_overflow, remove, partial_hash"]}
{"id": "C10", "title": "len and is_empty are exact at quiescence", "statement": "When no operation is in flight, len() equals the number of distinct keys stored and is_empty() is true exactly when it is zero, even if a resize is only partially finished.", "quantifier": "for every reachable state of the container", "why_tests_cant": "Depends on per-bucket counters staying exact over unbounded histories of inserts, removals, evictions and relocations.", "anchors": ["src/hash_table.rs: num_entries, has_entry", "src/hash_table/bucket.rs: len, insert, remove, mark_removed, extract_from, evict_lru_head"]}
{"id": "C11", "title": "Synchronous iteration visits every entry exactly once", "statement": "With no concurrent modification, iter_sync/retain_sync/iter_mut_sync present every stored entry to the closure exactly once (and nothing else), retain keeps exactly the entries for which the closure returned true, returning false from the iter closure stops at once, and a consumed entry is removed and returned.", "quantifier": "for every reachable container state (including partially resized) and every closure", "why_tests_cant": "Must hold for every layout of main slots and overflow blocks and every pattern of consumption during the iteration.", "anchors": ["src/hash_table.rs: for_each_reader_sync, for_each_writer_sync", "src/hash_map.rs: iter_sync, iter_mut_sync, retain_sync, clear_sync", "src/hash_table/bucket.rs: EntryPtr::move_to_next, unlink, remove"]}
{"id": "C12", "title": "Cursor iteration through entries", "statement": "begin_sync followed by next_sync (or remove_and_sync) until it returns nothing visits each stored entry exactly once in the absence of other writers, removing exactly the entries removed through the cursor.", "quantifier": "for every reachable container state and every choice of keep/remove at every entry", "why_tests_cant": "Unbounded sequences of mixed keep/remove steps across bucket and overflow-block boundaries.", "anchors": ["src/hash_map.rs: begin_sync, OccupiedEntry::next_sync, remove_and_sync", "src/hash_table.rs: LockedBucket::next_sync, find_entry"]}
{"id": "C13", "title": "HashMap operations are linearizable", "statement": "For any number of threads concurrently inserting, upserting, removing and reading, with resizing and incremental rehashing going on, every operation appears to take effect atomically at some instant between its invocation and its response: the results are those of a sequential finite map executed in that order.", "quantifier": "for every number of threads, every program of operations and every schedule of bucket-lock-level steps", "why_tests_cant": "The number of schedules is unbounded and resizes multiply it; stress tests only sample.", "anchors": ["src/hash_table.rs: writer_sync, reader_sync, dedup_bucket_sync, relocate_bucket_sync, incremental_rehash_sync, try_resize", "src/hash_table/bucket.rs: Writer::lock_sync, kill, Reader::lock_sync"]}
{"id": "C14", "title": "An entry is never lost, duplicated or resurrected by concurrent resizing", "statement": "At every instant of every concurrent execution each present key is stored in exactly one live location, and a removed key is in none; a resize, relocation or table drop never discards an entry or brings back a removed one.", "quantifier": "for every schedule, number of threads, number of consecutive resizes (growing and shrinking), and every hash function", "why_tests_cant": "Requires considering resizes that start while an earlier one is incomplete, at every interleaving.", "anchors": ["src/hash_table.rs: relocate_bucket, dedup_bucket_sync, try_resize, end_incremental_rehash", "src/hash_table/bucket.rs: extract_from, Writer::kill"]}
{"id": "C15", "title": "Incremental rehash hands out each range of buckets safely", "statement": "While several threads cooperate in moving an old table, the old table is declared empty (and detached) only after every one of its buckets has been processed, at most once, no matter how many threads help, in which order they finish, and which of them give up halfway (lock not available, panic) at any time; a range given up is handed out again.", "quantifier": "for every number of threads, table length, schedule, and set of failing helpers", "why_tests_cant": "The packed counter (position and 5-bit reference count in one word) must be right for all interleavings of claims, completions and roll-backs.", "anchors": ["src/hash_table.rs: start_incremental_rehash, end_incremental_rehash, incremental_rehash_sync", "src/hash_table/bucket_array.rs: rehashing_metadata, Drop"]}
{"id": "C16", "title": "Iteration under concurrent modification misses no stable entry", "statement": "Every entry that is present during the whole of an iter/retain call is presented to the closure at least once even if other threads insert, remove and resize the container meanwhile.", "quantifier": "for every schedule of other threads' operations and resizes, at every position of the iteration", "why_tests_cant": "The iteration position has to be re-mapped at any resize; tests hit few positions.", "anchors": ["src/hash_table.rs: for_each_reader_sync, for_each_writer_sync, from_index_to_range"]}
{"id": "C17", "title": "HashIndex peek never misses a stable key", "statement": "A lock-free peek/contains of a key that is present (not removed, not updated) during the whole call finds it, and whatever it returns is a value that was associated with the key at some instant during the call, even while the entry is moved between tables by a resize and other entries of the bucket are inserted and removed.", "quantifier": "for every schedule of writers and relocations against the individual memory steps of a reader", "why_tests_cant": "The reader takes no lock, so every interleaving of its scan with the writer's steps matters.", "anchors": ["src/hash_index.rs: peek, peek_with, contains", "src/hash_table.rs: peek_entry", "src/hash_table/bucket.rs: search_entry, search_data_block, mark_removed, insert, extract_from"]}
{"id": "C18", "title": "HashIndex in-place update is atomic for readers", "statement": "While OccupiedEntry::update replaces the value of a key, a concurrent peek of that key returns either the old or the new value, never nothing.", "quantifier": "for every schedule of a reader's scan against an update, and every layout of the bucket", "why_tests_cant": "A specific three-step interleaving and bucket layout is needed to violate it.", "anchors": ["src/hash_index.rs: OccupiedEntry::update, peek", "src/hash_table/bucket.rs: insert, mark_removed, search_entry, clear_unreachable_entries"]}
{"id": "C19", "title": "HashIndex removed entries stay intact until no reader can see them", "statement": "The memory of a removed HashIndex entry is not dropped or overwritten as long as a guard that was alive at the time of the removal may still reference it; once the epoch has advanced far enough it is eventually reusable.", "quantifier": "for every interleaving of removals, insertions into the same bucket, epoch advances and reader lifetimes", "why_tests_cant": "A violation is a use-after-free visible only under particular epoch timings.", "anchors": ["src/hash_table/bucket.rs: mark_removed, clear_unreachable_entries, drop_unreachable_entries", "src/hash_index.rs: OccupiedEntry::remove_entry, reclaim_memory, defer_reclaim"]}
{"id": "C20", "title": "HashIndex::Iter visits everything and is fused", "statement": "HashIndex::iter yields each entry exactly once when there is no concurrent modification and, as announced by its FusedIterator implementation, keeps returning None once it returned None.", "quantifier": "for every container content and every number of extra calls to next", "why_tests_cant": "Test loops stop at the first None, so behaviour after the end is never exercised.", "anchors": ["src/hash_index.rs: Iter::next, FusedIterator for Iter"]}
{"id": "C21", "title": "HashCache evicts the least recently used entry of a bucket", "statement": "Within one bucket, the entry evicted by put on a full bucket is the one whose last put/get is oldest, as if the recency order were kept in an explicit list; accessing an entry through get makes it the most recent, removing an entry deletes it from the order and nothing else.", "quantifier": "for every sequence of put, get, remove and eviction operations on a bucket", "why_tests_cant": "The packed 8-bit doubly linked list over 32 slots has an ambiguous (0,0) encoding; all 32-slot histories cannot be enumerated.", "anchors": ["src/hash_table/bucket.rs: DoublyLinkedList::{evict, remove, promote}, evict_lru_head, update_lru_tail", "src/hash_cache.rs: put_sync, get_sync, remove_if_sync"]}
{"id": "C22", "title": "HashCache put evicts at most one entry and keeps the new one", "statement": "put of an absent key makes the key present with the given value, evicts at most one other entry of the same bucket and only when the bucket's 32 slots are all taken, returns exactly the evicted pair, and leaves every other entry unchanged; put of a present key returns the pair back and evicts nothing. Hence a bucket never grows an overflow chain by put alone.", "quantifier": "for every reachable cache state, key, value and hash function", "why_tests_cant": "All reachable slot/recency configurations.", "anchors": ["src/hash_cache.rs: put_sync, VacantEntry::put_entry", "src/hash_table/bucket.rs: evict_lru_head, insert, update_lru_tail"]}
{"id": "C23", "title": "HashCache never holds more entries than its maximum capacity", "statement": "As long as no shrinking resize happens, len() of a HashCache never exceeds its current capacity(), and capacity() never exceeds the upper end of capacity_range().", "quantifier": "for every sequence of operations", "why_tests_cant": "An unbounded sequence of puts with any hash function must not leak past the bound.", "anchors": ["src/hash_cache.rs: put_sync, capacity_range, with_capacity_and_hasher", "src/hash_table/bucket.rs: evict_lru_head"]}
{"id": "C24", "title": "TreeIndex behaves as an ordered finite map", "statement": "Any sequence of insert, remove, remove_if, remove_range, peek, contains, len, is_empty and clear on a TreeIndex returns exactly what the same sequence returns on a mathematical ordered map, through any number of leaf splits, node splits, root splits and coalescing steps.", "quantifier": "for every finite sequence of operations and every total order on keys", "why_tests_cant": "Unbounded histories; deep trees with retired leaves at every position.", "anchors": ["src/tree_index.rs: insert_sync, remove_if_sync, remove_range_sync, peek, clear", "src/tree_index/leaf_node.rs", "src/tree_index/internal_node.rs", "src/tree_index/node.rs: split_root, cleanup_root"]}
{"id": "C25", "title": "TreeIndex iteration is complete and strictly ascending", "statement": "Without concurrent modification, iter() yields every entry exactly once in strictly ascending key order; range(b) yields exactly the entries whose key lies in b, in ascending order, for included, excluded and unbounded ends.", "quantifier": "for every tree shape reachable by operations and every range", "why_tests_cant": "All combinations of range ends with leaf boundaries and retired leaves.", "anchors": ["src/tree_index.rs: Iter::next, Range::next, set_check_upper_bound, next_unbounded", "src/tree_index/leaf.rs: Scanner"]}
{"id": "C26", "title": "remove_range removes exactly the range", "statement": "remove_range(b) removes every entry whose key lies in b and no other, for included, excluded, unbounded and empty ranges.", "quantifier": "for every tree shape and every range", "why_tests_cant": "Sub-tree cutting is decided from separator keys; boundary coincidences are hard to hit by tests.", "anchors": ["src/tree_index.rs: remove_range_sync", "src/tree_index/leaf_node.rs: remove_range, RemoveRangeState::next", "src/tree_index/internal_node.rs: remove_range", "src/tree_index/leaf.rs: remove_range, range_contains"]}
{"id": "C27", "title": "TreeIndex leaf operations are linearizable", "statement": "Concurrent insert, remove and search operations on the keys of one leaf, executed by any number of threads with their individual compare-and-swap steps arbitrarily interleaved, behave as atomic operations on a sorted map: no duplicate key can be inserted, no key is removed twice, the order of keys is never corrupted, and freezing/retiring a leaf is respected.", "quantifier": "for every number of threads, every program and every interleaving of atomic steps (under sequential consistency)", "why_tests_cant": "Packed rank words updated by CAS loops have exponentially many interleavings.", "anchors": ["src/tree_index/leaf.rs: insert, post_insert, rollback, remove_if, search_entry, search_slot, freeze, DIMENSION"]}
{"id": "C28", "title": "Splitting a full leaf preserves contents and order", "statement": "Splitting a leaf distributes its live entries over two new leaves without loss, duplication or reordering, every key of the lower leaf is smaller than every key of the upper one, neither new leaf is full, and the split point is well-defined for every insertion order.", "quantifier": "for every leaf content and every insertion order of its keys", "why_tests_cant": "All 14! insertion orders and all patterns of removed slots.", "anchors": ["src/tree_index/leaf.rs: freeze_and_distribute, optimal_boundary, insert_unchecked", "src/tree_index/leaf_node.rs: split_leaf"]}
{"id": "C29", "title": "A TreeIndex Iter/Range stays exhausted", "statement": "As announced by their FusedIterator implementations, TreeIndex::iter() and TreeIndex::range() keep returning None once they returned None; in particular a range iterator never yields a key outside its bounds.", "quantifier": "for every content and any number of calls to next", "why_tests_cant": "Test loops stop at the first None.", "anchors": ["src/tree_index.rs: Iter::next, Range::next, FusedIterator for Iter, FusedIterator for Range"]}
{"id": "C30", "title": "Range only yields keys inside its bounds under concurrency", "statement": "range(b) never yields a key outside b, whatever other threads insert or remove during the iteration.", "quantifier": "for every schedule of concurrent modifications", "why_tests_cant": "Needs the concurrent removal of the largest key of the leaf exactly between the snapshot and the bound check.", "anchors": ["src/tree_index.rs: Range::next, set_check_upper_bound", "src/tree_index/leaf.rs: Scanner::new, Scanner::max_key, max_key"]}
{"id": "C31", "title": "TreeIndex remove takes effect at most once", "statement": "One call of remove/remove_if removes at most one entry: if it returns true exactly one entry with that key has been removed by it, if it returns false none has.", "quantifier": "for every schedule of concurrent insertions and structural clean-up", "why_tests_cant": "Requires losing a race for the root's lock exactly when the root became empty while another thread re-inserts the same key.", "anchors": ["src/tree_index.rs: remove_if_sync, remove_if_async", "src/tree_index/node.rs: cleanup_root"]}
{"id": "C32", "title": "Range membership agrees with the standard library", "statement": "The internal test of whether a key is inside a range is equivalent to RangeBounds::contains, for heterogeneous (Comparable) query types and every combination of included, excluded and unbounded ends.", "quantifier": "for every key, range and total order", "why_tests_cant": "Universal over orders and bounds.", "anchors": ["src/tree_index/leaf.rs: range_contains"]}
{"id": "C33", "title": "Every stored key and value is released exactly once", "statement": "Every key/value handed to a hash container is, exactly once, either returned to a caller or dropped: by removal, replacement, eviction, clear, or the container's drop, even if the drop happens in the middle of an incremental resize.", "quantifier": "for every history ending in a drop of the container", "why_tests_cant": "Leaks and double drops depend on the position at which an incremental rehash was abandoned.", "anchors": ["src/hash_table/bucket_array.rs: Drop", "src/hash_table/bucket.rs: drop_entries, remove, evict_lru_head, extract_from", "src/hash_map.rs: Drop"]}
{"id": "C34", "title": "Equality and clone are extensional", "statement": "a == b holds exactly when both containers hold the same set of key-value pairs, independent of capacities, insertion history and layout; clone() produces an equal container.", "quantifier": "for every pair of reachable containers", "why_tests_cant": "Layouts differ in unboundedly many ways.", "anchors": ["src/hash_map.rs: PartialEq, Clone", "src/hash_set.rs: PartialEq", "src/hash_index.rs: PartialEq, Clone", "src/tree_index.rs: PartialEq, Clone"]}
{"id": "C35", "title": "Building from an iterator or a deserializer", "statement": "Collecting a sequence of pairs with repeated keys keeps the last value for HashMap, and the first for HashSet, HashIndex and TreeIndex; serializing a container and deserializing it yields an equal container.", "quantifier": "for every sequence of pairs, with any duplicates and any length", "why_tests_cant": "Universal over sequences and duplicates.", "anchors": ["src/hash_map.rs: FromIterator", "src/hash_set.rs: FromIterator", "src/hash_index.rs: FromIterator", "src/tree_index.rs: FromIterator", "src/serde.rs"]}
{"id": "C36", "title": "HashCache serialization announces its true length", "statement": "When a HashCache is serialized, the number of entries announced to the serializer equals the number of entries emitted, and deserializing the result gives back all entries.", "quantifier": "for every cache content and capacity", "why_tests_cant": "Self-describing formats ignore the announced length, so a round-trip test with one format passes.", "anchors": ["src/serde.rs: Serialize/Deserialize for HashCache"]}
{"id": "C37", "title": "Documented capacity limit", "statement": "As documented, with_capacity(c) yields a capacity of at least c unless c is greater than 1 << (usize::BITS - 1).", "quantifier": "for every c", "why_tests_cant": "Such a table cannot be allocated in a test.", "anchors": ["src/hash_map.rs: with_capacity docs", "src/hash_table/bucket_array.rs: BucketArray::new"]}
{"id": "C38", "title": "Exit guards run exactly once", "statement": "The clean-up action attached to an exit guard runs exactly once if the guard goes out of scope normally or by a panic, and not at all if it was forgotten.", "quantifier": "for every sequence of uses of a guard ending in a scope exit or a forget", "why_tests_cant": "All crash points inside the guarded scope.", "anchors": ["src/exit_guard.rs: ExitGuard"]}
{"id": "C39", "title": "Bucket lock discipline", "statement": "A writer never gets access to a bucket that another writer or a reader has locked, and no writer or reader gets access to a bucket that has been retired by a relocation, for any number of threads.", "quantifier": "for every schedule of lock, unlock, and kill steps", "why_tests_cant": "Schedules are unbounded.", "anchors": ["src/hash_table/bucket.rs: Writer, Reader"]}
{"id": "C40", "title": "Keyed access does not disturb other keys", "statement": "An operation on key k (insert, update, remove, lookup, and cache eviction aside) leaves the presence and value of every other key unchanged.", "quantifier": "for every reachable state, every k and every other key, every hash function", "why_tests_cant": "Universal over layouts and collisions.", "anchors": ["src/hash_table/bucket.rs: insert, remove, get_entry_ptr", "src/hash_map.rs"]}
{"id": "C41", "title": "capacity_range is a sensible range at all times", "statement": "capacity_range() always returns a range whose lower end does not exceed the upper end and is the sum of what was requested at construction and what is currently reserved.", "quantifier": "for every moment, including the middle of a resize by another thread", "why_tests_cant": "The window during which another thread holds the resize flag is tiny.", "anchors": ["src/hash_map.rs: capacity_range", "src/hash_table.rs: minimum_capacity, try_resize"]}
{"id": "C42", "title": "Allocated storage is large enough", "statement": "The number of bytes requested from the allocator for a table's bucket headers is at least the number of buckets times the size of a header; the size computation does not wrap around in a release build.", "quantifier": "for every requested capacity", "why_tests_cant": "Only astronomically large capacities make the computation wrap.", "anchors": ["src/hash_table/bucket_array.rs: bucket_array_layout, new", "src/hash_cache.rs: with_capacity"]}
{"id": "C43", "title": "Collecting allocates in proportion to the items", "statement": "Collecting an iterator into a hash container allocates an amount of storage bounded by a constant multiple of the number of items, whatever correct size hint the iterator gives.", "quantifier": "for every iterator with a correct size hint", "why_tests_cant": "Tests use iterators with exact hints.", "anchors": ["src/hash_table.rs: capacity_from_size_hint", "src/hash_map.rs: FromIterator"]}
{"id": "C44", "title": "An iterator never goes backwards", "statement": "As documented for TreeIndex::iter and TreeIndex::range (entries in monotonically increasing order), an iterator yields keys in strictly increasing order whatever operations, by the same or other threads, run between two calls of next.", "quantifier": "for every interleaving of complete operations with the calls of next", "why_tests_cant": "Needs a range removal around the iterator's leaf in a tree with internal nodes, followed by an insertion.", "anchors": ["src/tree_index.rs: Iter::next, Range::next", "src/tree_index/leaf.rs: Scanner::jump", "src/tree_index/internal_node.rs: remove_range"]}
{"id": "C45", "title": "Dropping an asynchronous call leaves nothing locked", "statement": "Dropping an asynchronous operation of a hash map at any point at which it can wait, or giving up in a try-operation, leaves no bucket locked by it and no resize marked as running, so later operations are never blocked by it; when no call is in progress no bucket is locked and an unfinished rehash can be continued.", "quantifier": "for every schedule, every point at which a call is dropped or gives up", "why_tests_cant": "The set of suspension points times interleavings is unbounded; a lock left behind shows up only as a hang.", "anchors": ["src/hash_table.rs: relocate_bucket_async, relocate_bucket_sync, incremental_rehash_async, try_resize", "src/hash_table/bucket.rs: Writer, Reader"]}
{"id": "C46", "title": "Hash map operations do not deadlock", "statement": "Whenever some operation of a hash map is in progress, at least one thread can take a step: threads moving buckets never wait for each other in a cycle, even while the table is growing or shrinking and several threads move overlapping buckets.", "quantifier": "for every number of threads and every schedule", "why_tests_cant": "A deadlock needs a particular interleaving of lock acquisitions.", "anchors": ["src/hash_table.rs: relocate_bucket_sync, dedup_bucket_sync, incremental_rehash_sync", "src/hash_table/bucket.rs: Writer::lock_sync"]}
{"id": "C47", "title": "Unchecked accesses of the concurrent hash map are justified", "statement": "In every concurrent execution of a hash map no bucket index is beyond its array, the unwrap_unchecked of the lock of a target bucket never meets a retired bucket, and the count of rehashing threads is never decremented below zero.", "quantifier": "for every number of threads and every schedule", "why_tests_cant": "The unchecked accesses rely on invariants that span threads and resizes; a violation is undefined behaviour.", "anchors": ["src/hash_table.rs: relocate_bucket_sync, end_incremental_rehash", "src/hash_table/bucket_array.rs: bucket, data_block"]}
{"id": "C48", "title": "HashCache recency survives resizing", "statement": "When put evicts an entry from a full bucket, no other entry of that bucket was last used (put or got) earlier, also if the cache has been resized in the meantime.", "quantifier": "for every history of a cache that may grow and shrink", "why_tests_cant": "Tests of eviction use a cache of fixed capacity or do not look at which entry is evicted.", "anchors": ["src/hash_table/bucket.rs: extract_from, evict_lru_head", "src/hash_table.rs: relocate_bucket_sync", "src/hash_cache.rs: put_sync"]}
{"id": "C49", "title": "HashCache stays within its capacity when it shrinks", "statement": "len() of a HashCache never exceeds its current capacity() nor the upper end of capacity_range(), whatever the cache went through, including resizes that make it smaller.", "quantifier": "for every sequence of operations", "why_tests_cant": "Needs entries spread unevenly enough for the sampling of the load to miss them.", "anchors": ["src/hash_table.rs: try_shrink, try_resize, sample, relocate_bucket_sync", "src/hash_table/bucket.rs: evict_lru_head, extract_from"]}
{"id": "C50", "title": "HashIndex reads do not go back in time", "statement": "If a peek of a key has found an entry and no removal of the key is in progress or starts afterwards, every peek of the key that starts later finds it too.", "quantifier": "for every schedule of readers and writers", "why_tests_cant": "Needs a second reader between two adjacent stores of an insertion.", "anchors": ["src/hash_table/bucket.rs: insert, insert_entry, search_entry", "src/hash_index.rs: peek"]}
{"id": "C51", "title": "Lock-free reads touch only initialised memory of the table", "statement": "A peek of a HashIndex in progress finds, at each of its memory accesses, a bucket, a link and an entry that exist and are initialised, whatever writers, relocations and clean-ups do meanwhile, as long as the bucket arrays are not freed (for which see C19).", "quantifier": "for every schedule of readers and writers at the granularity of single memory accesses", "why_tests_cant": "A violation reads uninitialised or reused memory in a window of a few instructions.", "anchors": ["src/hash_table/bucket.rs: search_entry, search_data_block, insert, drop_unreachable_entries, extract_from", "src/hash_table.rs: peek_entry"]}
{"id": "C52", "title": "HashIndex used by one thread behaves as a finite map", "statement": "The results of any sequence of HashIndex operations (insert, entry with update and removal, get, remove_if, peek, len, is_empty, iter_sync, iter, retain, clear, reserve) executed one after the other are those of a finite map, whatever the epochs of memory reclamation do in between.", "quantifier": "for every sequence of operations, every capacity, every hash function and every behaviour of the epochs", "why_tests_cant": "Removed entries stay in their slots, and updates and relocations decide by epochs whether slots are reused; tests run with few epochs and layouts.", "anchors": ["src/hash_index.rs: insert_sync, entry_sync, get_sync, OccupiedEntry::update, remove_if_sync, peek, retain_sync", "src/hash_table.rs: peek_entry, relocate_bucket_sync", "src/hash_table/bucket.rs: mark_removed, clear_unreachable_entries, insert"]}
{"id": "C53", "title": "Removed entries of a HashIndex do not pile up", "statement": "A removed entry stays in memory only while a reader may still hold it or its bucket is not accessed: without readers, the number of removed entries a HashIndex still keeps is bounded in terms of its capacity and contents, however many insertions and removals it has gone through.", "quantifier": "for every sequence of operations of one thread with no reader, every capacity and every hash function", "why_tests_cant": "Needs a bucket whose 32 regular slots are all taken by entries that stay while further keys come and go; memory is not looked at by tests.", "anchors": ["src/hash_table/bucket.rs: insert, insert_overflow, mark_removed, clear_unreachable_entries", "README.md: Entry lifetime"]}
{"id": "C54", "title": "TreeIndex survives panics of user code", "statement": "If K::clone or K::cmp panics during an operation of a TreeIndex and the panic is caught, the index afterwards behaves as if the operation had not been called: later lookups, insertions, removals and iterators see exactly its entries.", "quantifier": "for every sequence of operations and every call of K::clone or K::cmp that panics", "why_tests_cant": "Needs a panic at one of the few calls of clone or cmp that happen while a leaf is being split, followed by further operations and an iteration.", "anchors": ["src/tree_index.rs: TreeIndex (Unwind safety)", "src/tree_index/leaf_node.rs: split_leaf, rollback"]}
{"id": "C55", "title": "TreeIndex is linearizable under concurrent splits and merges", "statement": "For every run of concurrent calls of insert, remove_if and peek there is one order of the calls that respects which call returned before which began, and in which every call has the result that a finite map gives; no entry is lost, duplicated or resurrected while leaves and nodes are split, splits are rolled back, empty nodes are merged away and the root changes. No internal unreachable!() is reached.", "quantifier": "for every number of threads, every interleaving of their shared-memory accesses, every height of the tree and all key types", "why_tests_cant": "Lock-free descents race with multi-step structural changes at several levels; the number of interleavings is far beyond stress tests.", "anchors": ["src/tree_index.rs: insert_sync, remove_if_sync, peek", "src/tree_index/leaf_node.rs: insert, remove_if, search_value, split_leaf, split_leaf_node, commit, rollback, coalesce", "src/tree_index/internal_node.rs: split_node, finish_split, commit, rollback, coalesce", "src/tree_index/node.rs: split_root, cleanup_root"]}
{"id": "C56", "title": "Concurrent iteration over a TreeIndex is ordered", "statement": "An iterator over a TreeIndex yields keys in strictly ascending order, hence none twice, while other threads insert and remove entries, whatever state their splits, rollbacks and merges are in.", "quantifier": "for every interleaving of the steps of the iterator with those of any number of writers", "why_tests_cant": "Needs a split of a leaf that is rolled back between two loads of the iterator.", "anchors": ["src/tree_index.rs: Iter::next", "src/tree_index/leaf.rs: Scanner::jump", "src/tree_index/leaf_node.rs: split_leaf, rollback"]}
{"id": "C57", "title": "Concurrent iteration over a TreeIndex misses nothing and invents nothing", "statement": "An iterator over a TreeIndex that has returned None has yielded every key-value pair that was in the index at every instant from the creation of the iterator to that None, and every pair it yields was in the index at some instant after its creation, while other threads insert and remove entries, whatever state their splits, rollbacks, merges and changes of the root are in.", "quantifier": "for every interleaving of the steps of any number of iterators with those of any number of writers, every height of the tree and all key types", "why_tests_cant": "An entry moves to new leaves, and the list of leaves is relinked, between any two loads of the iterator; the interleavings are far beyond stress tests.", "anchors": ["src/tree_index.rs: Iter::next", "src/tree_index/leaf.rs: Scanner::new, Scanner::jump", "src/tree_index/leaf_node.rs: min, split_leaf, commit, rollback, coalesce", "src/tree_index/internal_node.rs: min"]}
{"id": "C58", "title": "Relocation allocates before it moves entries", "statement": "When a bucket is relocated during a resize and memory has to be allocated for it, the memory is allocated before the first entry is moved, so running out of memory leaves every entry in the table, and exactly once: after slots have been reserved for n entries in a bucket, inserting n entries into it allocates nothing.", "quantifier": "for every history of the target bucket and every number of entries", "why_tests_cant": "Needs an allocation failure at one exact point; tests do not inject any, and the memory allocated is not looked at.", "anchors": ["src/hash_table.rs: relocate_bucket", "src/hash_table/bucket.rs: reserve_slots, extract_from, insert_overflow"]}
{"id": "C59", "title": "HashMap survives panics of user code", "statement": "If Eq::eq, a closure passed to update, remove_if, retain or run on an entry, or Hash::hash of a stored key during a resize panics and the panic is caught, a HashMap used by one thread goes on as a finite map: an operation that unwound has either had no effect or exactly the effect of the closure calls that were made (an updater that unwound leaves its value behind, retain has treated some of the entries and left the rest alone), every later operation answers accordingly, and every entry is dropped exactly once.", "quantifier": "for every history of operations, every operation in it that unwinds and every point at which it unwinds, every bounded hash function and capacity", "why_tests_cant": "The interesting panics happen while a bucket is half moved to a new array or half visited by retain; tests would have to inject a panic at each single call of user code and then check every later operation.", "anchors": ["src/hash_map.rs: HashMap (Unwind safety)", "src/hash_table.rs: relocate_bucket, relocate_bucket_sync, incremental_rehash_sync, end_incremental_rehash, for_each_writer_sync", "src/hash_map.rs: update_sync, remove_if_sync, retain_sync, entry_sync"]}
{"id": "C60", "title": "A panic of Hash in one thread does not mislead the others", "statement": "If Hash::hash panics in an operation of one thread, an operation that runs at the same time in another thread still finds every key that is in the map throughout, and insert does not add a key a second time.", "quantifier": "for every interleaving of an operation with operations of other threads that may unwind", "why_tests_cant": "Needs a thread that has loaded the bucket array but not yet locked its bucket while another one starts a resize and unwinds in the middle of moving that bucket. The documentation excludes panics of Hash; this shows what the exclusion protects from.", "anchors": ["src/hash_table.rs: reader_sync, writer_sync, relocate_bucket, relocate_bucket_sync"]}
{"id": "C61", "title": "Asynchronous operations do not touch reclaimed bucket arrays", "statement": "An asynchronous operation on a HashMap, HashSet or HashCache (insert_async, read_async, remove_async, iter_async, retain_async and so on) may be suspended while it waits for a bucket, and dropped while suspended. Whatever other operations, resizes and reclamations of bucket arrays happen meanwhile, it never reads a bucket array that has been reclaimed and never accesses a bucket beyond the end of an array.", "quantifier": "for every number of asynchronous and synchronous operations, every interleaving of their steps, every future dropped while it waits, every sequence of resizes, every reclamation that epochs permit and every reuse of addresses", "why_tests_cant": "A suspended operation holds no guard; what it may still touch depends on which of several operations unlinks which array while it waits, and a read of reclaimed memory usually goes unnoticed.", "anchors": ["src/async_helper.rs: AsyncGuard", "src/hash_table.rs: reader_async, writer_async, optional_writer_async, for_each_reader_async, for_each_writer_async, dedup_bucket_async, relocate_bucket_async, incremental_rehash_async, end_incremental_rehash", "src/hash_table/bucket.rs: Writer::lock_async, Reader::lock_async"]}
{"id": "C62", "title": "Concurrent ranges with an upper bound miss nothing and invent nothing", "statement": "A range over a TreeIndex with an inclusive, exclusive or no upper bound and no lower bound, when it returns None, has yielded every key-value pair with a key within the bound that was in the index at every instant from the creation of the range to that None, and every pair it yields was in the index at some instant after its creation, while other threads insert and remove entries, whatever state their splits, rollbacks and merges are in.", "quantifier": "for every interleaving of the steps of any number of ranges with those of any number of writers, every height of the tree, all key types and every upper bound", "why_tests_cant": "Whether the range compares a key with its bound at all depends on a flag that is computed from the largest key of the leaf at another time than the entries are read; leaves are split and replaced in between.", "anchors": ["src/tree_index.rs: Range::next_unbounded, Range::set_check_upper_bound, Range::next", "src/tree_index/leaf.rs: max_key, Scanner::jump"]}
{"id": "C63", "title": "Which of several equal keys is kept", "statement": "With keys that are equal but can be told apart: replace_sync on a HashMap, HashSet or HashCache puts the given key in the place of the stored one, returns the stored one and leaves its value and all other entries alone; if there is none, it returns nothing and the vacant entry can be filled with the given key. Every other operation that leaves an entry in the map, be it insert, upsert, entry, update, remove_if, retain, reserve or a resize, leaves the key it had; a rejected insert or put hands the given key back.", "quantifier": "for every history of operations on one thread, all key and value types, every hash function and capacity", "why_tests_cant": "Needs keys whose Eq ignores a part of them; the unit tests do that for single operations, never across resizes and mixed histories.", "anchors": ["src/hash_map.rs: replace_sync, insert_sync, upsert_sync, entry_sync, retain_sync", "src/hash_set.rs: replace_sync", "src/hash_cache.rs: replace_sync"]}
{"id": "C64", "title": "An entry of a HashCache that was just accessed is not the next one evicted", "statement": "An access to an entry of a HashCache of fixed capacity (put, get, read, lookup by entry) that leaves it there protects it: it is still in the cache after any further operations that do not remove it themselves, as long as they use keys of its bucket at most 31 times.", "quantifier": "for every history on one thread before and after the access, all key and value types, every hash function and every fixed capacity", "why_tests_cant": "Which operations count as a use is decided by whether the code calls update_lru_tail; tests check a few patterns of put and get. How many insertions an entry survives depends on the whole history of the bucket.", "anchors": ["src/hash_cache.rs: put_sync, get_sync, read_sync, entry_sync, VacantEntry::put_entry", "src/hash_table/bucket.rs: update_lru_tail, evict_lru_head"]}
{"id": "C65", "title": "any finds an entry if there is one", "statement": "any_sync of HashMap and HashIndex applies its predicate to entries of the map, to none twice, until it accepts one, and returns that entry; it returns None only if the predicate rejected every entry of the map. Removing the returned entry or replacing its value affects no other entry.", "quantifier": "for every history of operations on one thread before, including those that leave a resize unfinished, every predicate with or without a state, all key and value types, every hash function and capacity", "why_tests_cant": "While a resize is unfinished, the entries are spread over two arrays and any_sync relocates buckets as it goes; what it could skip or see twice depends on the layout. Unit tests call it on small maps.", "anchors": ["src/hash_map.rs: any_sync, OccupiedEntry::remove_entry, OccupiedEntry::insert", "src/hash_index.rs: any_sync, OccupiedEntry::remove_entry, OccupiedEntry::update", "src/hash_table.rs: for_each_writer_sync"]}
{"id": "C66", "title": "The operations on an entry act on that entry one after another", "statement": "While an Entry of a HashMap or HashIndex is held, and_modify (HashMap) calls its closure exactly if the key is present at that time, with its current value; or_insert, or_insert_with, or_insert_with_key and or_default call their constructor exactly if the key is absent, with that key; the entry they and insert_entry return, and an entry after update (HashIndex), is the one of that key and shows the value just stored; later operations on it, such as remove_entry, act on that same entry. No other key of the map is affected.", "quantifier": "for every history of operations on one thread before, including those that leave a resize unfinished, every key, every sequence of operations on the entry, any advance of the epoch between them (HashIndex), all key and value types, every hash function and capacity", "why_tests_cant": "An Entry holds a position in a bucket, and inserting through it stores the entry in a slot that depends on the layout of the bucket and its linked blocks; a wrong position shows only when the entry is used again afterwards. Unit tests use an entry once or twice on small maps.", "anchors": ["src/hash_map.rs: Entry::and_modify, Entry::or_insert_with_key, Entry::insert_entry, VacantEntry::insert_entry, OccupiedEntry::get, OccupiedEntry::get_mut, OccupiedEntry::remove_entry", "src/hash_index.rs: Entry::or_insert_with_key, VacantEntry::insert_entry, OccupiedEntry::update, OccupiedEntry::remove_entry", "src/hash_table/bucket.rs: Writer::insert"]}
