# Formal model of `scc` (scalable concurrent containers) in Rocq/Coq 8.16

The source under /repo (crate `scc` 3.4.8) is read as text; nothing is compiled or run.
`rocq/theories/` holds three kinds of files:

* `*Model.v`   – executable Gallina transcription of the Rust code, function by function,
                 every definition citing the file and lines it models and the
                 simplifications made;
* `*Facts.v`   – lemmas and proofs about one model;
* `*Props.v`   – property theorems only: the small independent specification the theorem is
                 stated against, the theorem (closed by `exact lemma`), a concrete `Example`
                 that meets its hypotheses, and `Print Assumptions`.

## Modelling conventions

* `usize`/`u64` are `N` (or `nat` for slot indices); wrap-around is written explicitly where
  the property is about overflow.  64-bit target assumed (usize = u64).
* `&mut self` / interior mutability becomes a function returning the new value.
* `MaybeUninit` slots are `option`; reading an uninitialised slot is an explicit error value,
  and the theorems show it is never produced.
* Keys have a decidable equality (the `Equivalent`/`Eq` law), the hasher is an arbitrary
  function to 64-bit words (Section variable, universally quantified in every theorem).
* Loops are structural recursion or recursion on explicit fuel with an error value.
* Concurrency: small-step transition systems over a shared state and any number of threads;
  each atomic memory access (or each lock-protected critical section, as stated per model) is
  one step; memory is sequentially consistent.  Relaxed/Acquire/Release weak-memory behaviour
  is not modelled.
* `saa::Lock`, `sdd` (epoch reclamation) are external crates: modelled by their contract
  (reader/writer lock with poisoning; guards and epochs with generations).
* Async variants (`*_async`) are the same algorithms with suspension points at lock
  acquisition; only the `*_sync` code is transcribed, except in SuspModel (C61), which is about the `*_async` code.

## Plan per property

| id | model | how proved |
|----|-------|------------|
| C01 | CapModel: `BucketArray::new` arithmetic, `next_power_of_two`, clamps | algebraic, all c < 2^64 |
| C02 | CapModel: `bucket_index = hash >> (64 - log2 len)` | algebraic, all hashes, all table sizes |
| C03 | CapModel: `from_index_to_range` | algebraic; both directions (grow/shrink/equal) |
| C04 | CapModel: `try_resize`'s capacity computation | algebraic; all estimates, min, max |
| C05 | CapModel: `reserve_capacity` and `Reserve::drop` as a state machine over interleaved calls | invariant by induction over histories |
| C06 | CapModel: `capacity_from_size_hint` | algebraic |
| C07 | BucketModel + TableModel: bucket array(s), old array, per-bucket relocation, resize | refinement to `key -> option value`, induction over histories in which resize/rehash steps may occur anywhere |
| C08 | corollary of C07's step lemmas, plus leaf/tree counterpart | refinement |
| C09 | BucketModel: bitmaps, partial hashes, overflow chain | refinement of one bucket to a finite map, any hash |
| C10 | BucketModel/TableModel: per-bucket `len` counters | invariant |
| C11 | BucketModel: `EntryPtr::move_to_next`, `remove`, `unlink`; TableModel loops | refinement of the loop to filtering the entry list |
| C12 | `CursorModel` (`LockedBucket::next_sync`, `begin_sync`, `remove_and_sync`) | refuted by witness; coverage and the removal-free case by invariant |
| C13 | CtModel: threads, bucket locks, array pointer, old array, incremental rehash, resize, scans, give-ups, dropped async calls | invariant (CtInv, CtPres*) and linearization points (CtLin), any number of threads |
| C14 | CtModel | invariant over all schedules |
| C15 | CtModel: packed counter protocol as part of the table | invariant over all schedules |
| C16 | CtModel: scans | invariant over all schedules |
| C17 | PeekModel: memory-step reader vs. writer/relocator | invariant over all schedules (SC): buckets up to the slots exempted by a writer (PeekInv, PeekGlob), what every step keeps (PeekTrans), the entry stays ahead of the reader (PeekRead), what the reader has seen is protected by its guard (PeekSeen) |
| C18 | PeekModel with `update` | `_refuted` by a schedule: the reader passes the main block before the new version is put there, then reaches the link after the old version is marked removed; `_partial` (PkFacts): reads that do not overlap both halves of the update |
| C19 | GarbageModel: arrays, garbage chain, guards, epochs | `_refuted` for arrays by two schedules; proved for the slots of entries by the invariants of C17 (PeekTrans.t_prot) |
| C20 | IndexModel: `Iter::next` | exactly-once by a "what is still to come" function (IndexIter); the fused claim `_refuted` |
| C21 | LruModel: array of (u8,u8) pairs; CacheModel | refinement to an explicit recency list, then of a whole cache of fixed capacity to an LRU cache per bucket (CacheLru, CacheFix); with relocations see C48 |
| C22 | CacheModel | refinement of histories; the choice of the victim is left open (CacheRunFacts) |
| C23 | CacheModel | invariant by induction over histories: no overflow chains and no larger old array (CacheTidy, CacheTidy2), then counting per bucket |
| C24 | LeafModel, TreeModel | refinement to a sorted association list |
| C25 | TreeModel iteration | equality with the filtered sorted list |
| C26 | TreeModel remove_range, RemoveRangeState | equality with filter |
| C27 | LeafConc: CAS-level steps | simulation, any number of threads |
| C28 | LeafModel: freeze_and_distribute, optimal_boundary | algebraic + invariant |
| C29 | TreeIter model | expected `_refuted` |
| C30 | TreeIter model with a concurrent removal step; RgModel | `_refuted`; sequential version proved in C25; `_partial`: without removals beyond the bound, by an invariant of the range (RgFacts): entries it still holds that are beyond the bound are still in their leaf, so the flag is set; LbModel: lower bounds, `C30_lower_bound_refuted` and, without rollbacks, `_partial` by the invariant of C56 |
| C31 | remove_if retry loop model with concurrent insert; TcModel | `_refuted`; at most one removal per call in runs of TcModel without the retry |
| C32 | LeafModel: range_contains | algebraic against an independent definition |
| C33 | ownership accounting over BucketModel/TableModel | invariant |
| C34 | TableModel/TreeModel iterators + lookups | refinement |
| C35 | fold of insert/upsert over the map specification and the table | induction over the list |
| C36 | CacheModel: serde | `_refuted`; `_partial` (CacheSerde): every entry is emitted once, nothing is invented, exact for at most 32 entries |
| C37 | CapModel | expected `_refuted` (limit is 2^62, not 2^63) |
| C38 | ExitGuard state machine | induction over traces |
| C39 | CtModel (contract of saa::Lock with poisoning) | invariant over all schedules |
| C40 | corollary of C07 step lemmas | refinement |
| C41 | CapModel: `minimum_capacity` word with the RESIZING bit | `_refuted` during a resize; proved otherwise |
| C42 | CapModel: `bucket_array_layout` with 64-bit wrap | proved for headers up to 64 bytes, `_refuted` for HashCache |
| C43 | CapModel: `capacity_from_size_hint` + `with_capacity` | `_refuted`; bound for hints that announce no more than there is |
| C44 | TreeModel: Iter with operations between calls of next | `_refuted` |
| C45, C46, C47 | CtModel | invariants over all schedules |
| C48 | CacheModel | `_refuted` |
| C49 | CacheModel | `_refuted`; C23 is the positive part |
| C50 | PeekModel | `_refuted` by a schedule of two readers and an insertion; `_partial` (PkFacts): every step but the removal itself leaves an entry in some slot, then C17 |
| C51 | PeekModel | the invariants of C17 |
| C52 | IndexModel on TableModel | refinement of histories to a finite map; what epochs decide is an argument of every operation (IndexFacts, IndexFacts2, IndexRun) |
| C53 | IndexModel | `_refuted` for every number of removed entries: induction over insert/remove cycles on a full bucket (IndexLeak); `_small_bucket_partial` for buckets that never hold more than 31 entries: induction over the history, no overflow link is ever made (IndexTidy) |
| C54 | TreeUnwind: the first split of a leaf in insert_sync with a panic of K::clone at leaf_node.rs L853, and the ExitGuard | `_refuted`; `_partial`: lookups after the unwinding (search depends on the leaves of the tree only) |
| C55 | TcModel: the tree shared by any number of threads, one shared-memory access per step | invariant of the heap (TcInv: every key routes from the root and from every node a thread may still be at to the leaf that has it, or to a frozen copy that was right since the call began), kept by every step (TcRoute … TcSys), and of the calls in progress (TcOps, TcRun); the order of the calls is built from the history of updates (TcLins). Spec in Herlihy-Wing form (TcLin). `_refuted` by the race of C31; `_partial` without races, and for all runs with removals counted as often as they removed |
| C56 | TiModel: the list of leaves and iterators, a layer over TcModel | `_refuted`: a run in which a split is rolled back while an iterator is between the leaf and its lower half. `_partial`: without rollbacks the order holds in every run; invariant `W` (TiOrd): a leaf that is neither marked nor deleted holds the ways of the keys read from it, or is a half of a leaf that does; the same for TmModel |
| C57 | the same model; TmModel: with the search for the first leaf as in the code | `_refuted` in TmModel (TmThms): the search goes on with the old node of a split in progress. `_partial`: iterators that never go on with a next child after one without a leaf; invariant of the list of leaves (TiInv): order of keys along the list, blocks of a split (origin, low half, high half) and their stages; what a step of the tree does to leaves (TiTs); what a position in the list says about entries not yet yielded (TiCur), how the first descent gets to such a position (TiSeek), and the invariant of iterators over all runs (TiLoop). `C57_never_invents_partial` for all iterators: every entry of every leaf, reachable or not, was inserted (TnFacts) |
| C58 | BucketModel: `reserve_slots`, `insert` | `_refuted`: a bucket without an overflow bucket; positive part by counting free slots (ReserveFacts) |
| C59 | TuModel: HashMap operations on TableModel in which Hash of a stored key (relocation), Eq or a closure unwinds; what the guards of relocate_bucket_sync and incremental_rehash_sync restore | invariant of C07 holds in the states left by unwinding (part of a bucket moved); induction over histories against the relation TuSpec.ref_run |
| C60 | TlModel: a thread that has loaded the array and locks its bucket after operations of another thread (TuModel) | `_refuted` by vm_compute |
| C61 | SuspModel: asynchronous operations with their AsyncGuard, bucket arrays that are linked, unlinked, retired and reclaimed, addresses that are used again | three `_refuted` runs; `_partial`: invariant (SuspFacts, SuspFrame, SuspStep*, SuspRun): who protects the arrays a task refers to (its guard, the link from the array it rehashes into, its share of the rehashing) at every program point |
| C62 | RgModel: a range is an iterator of TiModel with a bound and the flag check_upper_bound | soundness `_refuted` in LbModel by the run of C57; `_partial`: what it has yielded is a prefix of what its iterator came to (RgMore), then the invariant of C57; the same in LbModel for ranges without a lower bound that never go on with the next child (ToFacts: their search steps are those of TmModel); TnFacts: every pair yielded was inserted |
| C63 | KpModel: keys with a part that Hash and Eq ignore, replace_sync; on top of TableModel and MapModel; CkModel: the same for HashCache, on top of CacheModel | every operation is one of MapModel on a table of pairs (KpFacts.kstep_tr), then C07; the specification (KpSpec) is a list of entries |
| C64 | CacheModel, as in C21 | read and entry `_refuted` by vm_compute; `_partial`: C21 turns every result into one of the LRU list, then an invariant on how many entries of the bucket are ahead of the key in that list (LvFacts) |
| C65 | AnModel: any_sync on top of TableModel | induction over the buckets with the invariant of C11 (what has been searched and what is to come are a permutation of the contents), then C07's operations on a found entry (AnFacts); for HashIndex the same search and C52's operations (AnIndex) |
| C66 | EnModel, EnxModel: sequences of operations on a held Entry, on top of TableModel | invariant: the position held points to the entry of the key in the locked bucket, the table is the rest of the map and the cell (EnFacts, EnxFacts) |

## Trusted base

* The Coq 8.16.1 kernel (and `coqchk`).
* `Print Assumptions` of each property theorem, run beneath it in the `*Props.v` files: it prints
  "Closed under the global context" for every one of them. No axiom is used, neither of the standard library nor
  of any other library. (Iris is not used; std++ is.)
* The reading of /repo into the models, as cited in the comments.

## What is modelled, file by file

| model | code | not modelled |
|---|---|---|
| CapModel | capacity arithmetic of bucket_array.rs, hash_table.rs, hash_map.rs, serde.rs (64-bit words with explicit wrap) | allocation itself |
| LruModel | the doubly linked recency list of bucket.rs | |
| BucketModel | bucket.rs: main and linked data blocks, insert, remove, mark_removed, evict, search, extract, drop | raw memory (a slot is an option), partial-hash SIMD |
| TableModel | hash_table.rs: bucket arrays, incremental rehash, resize, keyed access, iteration, drop; one thread | async variants, `replace_sync` (KpModel), locks (see the concurrent models) |
| MapModel | hash_map.rs / hash_set.rs API on top | formatting, iterators by reference that only wrap the above |
| CacheModel | hash_cache.rs API and its serde on top of TableModel; one thread | async variants, `replace_sync` (CkModel), formatting |
| IndexModel | hash_index.rs API, its iterator and its serde on top of TableModel; one thread; when epochs advance and when the garbage chain is freed is arbitrary | async variants, formatting, Debug; the epoch is constant within one operation |
| GuardModel | exit_guard.rs | panics inside destructors of captured values |
| GarbageModel | the array pointers, `linked_array`, garbage chain and epoch check of HashIndex, one shared access per step, any number of threads, sequential consistency | the entries; when tables are empty or resized is arbitrary; moving a range of buckets is one step; weak memory orderings |
| PeekModel | `peek_entry`, `search_entry`, `search_data_block`, and the stores of insertion, removal, clean-up, reservation, transfer of entries in HashIndex, one memory access per step, any number of threads, sequential consistency | the loads of writers from their own locked buckets; which operations run and when is arbitrary; arrays are not freed (GarbageModel); the `len` of a bucket is relaxed in the code; panics of user code during relocation |
| CursorModel | `begin_sync`, `next_sync`, `remove_and_sync` | |
| LeafModel | tree_index/leaf.rs on one metadata snapshot | the link to the next leaf |
| TreeModel | tree_index.rs, leaf_node.rs, internal_node.rs, leaf scanner: insertion with all splits, removal and coalescing, remove_range, lookup, Iter, Range, clear, clone, ==; one thread, leaves in a heap with their links | locks, retries caused by other threads, async variants, deferred reclamation |
| TreeRace | the retry loop of `remove_if` against insertions at one given point | other interleavings |
| CtModel | hash_table.rs and the locks of bucket.rs, one atomic access or lock operation per step, any number of threads, sequential consistency; the contents of a bucket are a list and a critical section is one step; sizes of new tables and the moments of resizing are arbitrary; giving up (try) and dropping (async) at every lock | weak memory orderings, panics of user code, the lock-free readers of HashIndex (see C17), reclamation of arrays (arrays are never freed in the model) |
| TcModel | tree_index.rs insert_sync, remove_if_sync, peek; leaf_node.rs and internal_node.rs search, insert, remove_if, split_leaf, split_leaf_node, split_node, commit, rollback, coalesce; node.rs split_root, cleanup_root; one shared access per step, any number of threads, sequential consistency | operations on one leaf are atomic (LeafConc, C27); capacities are arbitrary; the list of leaves, iterators, remove_range, clear, unwinding, reclamation; weak memory orderings |
| TiModel | tree_index.rs Iter; leaf.rs Scanner, jump; leaf_node.rs and internal_node.rs min; the list operations in split_leaf, commit, rollback, coalesce; on top of TcModel | the trait LinkedList of sdd (push_back, delete_self, next_ptr, mark, unmark, is_clear) is taken from its documentation; a descent that finds no leaf below a node starts over (not in TmModel and LbModel); Range, RevIter; weak memory orderings |
| TmModel | as TiModel, with min of internal_node.rs L163-195 and leaf_node.rs going on with the next child and with the unbounded child | as TiModel, but for the descent |
| RgModel | tree_index.rs Range: new, next_unbounded with the start bound Unbounded, set_check_upper_bound, next; on top of TiModel | lower bounds (LbModel), asking again after None (C29) |
| LbModel | tree_index.rs Range: as RgModel, with both bounds; leaf_node.rs and internal_node.rs max_le_appr and min; leaf.rs Scanner::max_less, jump | asking again after None (C29); completeness of such ranges is not proved |
| KpModel | hash_map.rs replace_sync and the operations of MapModel, for keys that are equal but can be told apart; hash_set.rs replace_sync | HashIndex with such keys, HashCache (CkModel), async variants; what is done with the OccupiedEntry that replace_sync returns (an operation of its own) |
| CkModel | hash_cache.rs replace_sync on top of CacheModel, for keys that are equal but can be told apart; one thread | async variants |
| AnModel | hash_map.rs any_sync and hash_index.rs any_sync and the use of the entry they return; one thread | any_async |
| EnModel | hash_map.rs entry_sync, Entry and the operations on a held entry; one thread | try_entry, entry_async, the entries of HashCache; a closure is a function of the value |
| EnxModel | hash_index.rs entry_sync, Entry and the operations on a held entry; one thread, the epoch may advance between the operations | try_entry, entry_async, the unsafe and_modify and get_mut |
| TuModel | hash_table.rs relocate_bucket, relocate_bucket_sync, incremental_rehash_sync, end_incremental_rehash, dedup_bucket_sync, for_each_reader_sync, for_each_writer_sync and hash_map.rs update, remove_if, retain, entry with a panic of user code, HashMap, one thread | panics of destructors and of Hash of the argument; unwinding out of asynchronous operations; out of memory |
| TlModel | hash_table.rs reader_sync and writer_sync from the lock on, after the array was loaded without a linked array | the retry after a killed bucket; any other interleaving |
| SuspModel | async_helper.rs AsyncGuard; hash_table.rs reader_async (writer_async and optional_writer_async have the same skeleton), for_each_reader_async, for_each_writer_async, dedup_bucket_async, relocate_bucket_async, incremental_rehash_async, start/end_incremental_rehash; bucket.rs lock_async; epoch-based reclamation by its contract; any number of tasks, sequential consistency | entries, shared locks (taken as exclusive ones), the decision to resize, HashIndex |
| LeafConc | the same functions, one atomic access per step, any number of threads, sequential consistency | weak memory orderings, panics of user code |

### Assumed about dependencies

* `sdd::LinkedList` (the list of leaves): one link word with a tag. `is_clear` = tag None, `mark` sets
  First, `delete_self` sets Second for good, `push_back` fails on Second and otherwise puts the new entry
  between this one and its successor, `next_ptr` returns the first successor that is not deleted.
  Physical unlinking of deleted entries is not observable.
* `sdd` epochs: memory behind a guarded pointer is not reused while the guard lives, if it is retired through
  sdd. For HashIndex, which does its own retirement (GarbageModel): `guard.epoch()` is the global epoch, which
  advances only if all guards announced the current one; epochs are numbers modulo 64; `e.in_same_generation(c)`
  iff c is one of e .. e+3; `drop_in_place` frees at once if it has the last reference; `compare_exchange`
  compares the pointer and tag only. The source of sdd is not part of /repo, so these are not checked.
* `Ord` of keys is a total order whose `Equal` is equality, and does not change; `Hash` is a function of
  the key, and equal keys (also borrowed ones) hash equally.

## Findings

Properties that are false of the code as modelled carry a `_refuted` theorem with a witness:

* C12: `remove_and_sync` on the cursor can shrink the table by 4 or more; the cursor restarts in a
  merged bucket and yields an entry twice.
* C27: an insertion into a leaf may answer `Duplicate` for a key that was never present, if a split
  freezes the leaf and is rolled back between the two halves of the insertion.
* C37: the documented capacity limit 2^63 is not honoured (the limit is 2^62).
* C41: `capacity_range` shows the internal resize flag during a resize.
* C42: the size of HashCache's bucket array wraps at the largest capacity.
* C43: collecting from an iterator allocates by the *upper* bound of its size hint.
* C58: `Bucket::reserve_slots` reserves nothing if the bucket has no overflow bucket yet, so the relocation
  of entries that calls itself infallible may allocate between two entries.
* C29: `TreeIndex::Iter` and `Range` are declared `FusedIterator` but start over after `None`; a `Range`
  then yields keys below its lower bound.
* C30: a `Range` yields a key above its upper bound if that key is removed by another thread between the
  creation of the scanner and the check; and a key below its lower bound, without any removal, if a leaf
  split is rolled back while it is between the leaf and its lower half (the lower bound is not checked after
  the first key inside).
* C31: `TreeIndex::remove_if` can remove two entries in one call: when `cleanup_root` finds the root
  locked by a thread that is inserting the same key, the loop runs `remove_if` again on the new root.
* C55: the race of C31 breaks linearizability: insert(k) and remove(k) both succeed, overlapping, and the key is gone.
* C56: an iterator that is between a leaf being split and its lower half when the split is rolled back yields keys of that leaf again (rollback removes the mark by which `jump` knows that it has to skip keys).
* C57, C62: while an internal node is being split, its parent has the lower half (inserted) and still the node itself
  (not yet replaced by the higher half). If a leaf node of the lower half is split and then everything in the lower half
  is removed, `min` finds no leaf there and goes on with the old node, which still has the old leaves: an iterator or a
  range created then yields entries whose removal returned before it was created.
* C44: an iterator goes backwards after `remove_range` dropped the subtree it was in and a key was
  inserted in the gap.
* C64: `HashCache::read_sync` and `entry_sync` on a present key do not update the LRU list although the documentation
  says it is updated on access: the entry read last can be the next one evicted.
* C36: serializing a HashCache announces the capacity limit as the number of entries, and
  deserializing may lose entries (the new cache evicts before it has grown).
* C19: `dealloc_garbage` loads the head of the garbage chain, checks the epoch and then detaches the chain if the
  head has the same address. If in between the array was freed by another thread and its memory used for a new
  array that is retired again, or a dropped table was taken for an unfinished old array and retired twice, the
  chain is younger than the epoch that was checked, and arrays that guards protect are freed.
* C20: `HashIndex::Iter` is declared `FusedIterator`; at the end it resets its bucket and index but keeps the array,
  so a call after `None` goes on with bucket 1 and yields its entries again.
* C53: `insert` calls `clear_unreachable_entries` only if the 32 regular slots of the bucket are occupied and one of
  them is removed. If they hold entries that stay, removed entries in the links are never dropped: inserting and
  removing one key n times leaves n dead entries, with no reader and no resize.
* C54: `split_leaf` links the halves of a full leaf behind it and then clones a key and compares keys. If that panics,
  the `ExitGuard` (L807-811) thaws the leaf and releases the lock, but does not unlink the halves as `rollback` does.
  They stay in the list of leaves: a key removed afterwards still shows up in `iter` and `range`, and after one more
  insertion `iter` yields all entries of the leaf twice and out of order. The documentation says that the index is
  impervious to panics in user code.
* C60: a panic of `Hash` in `relocate_bucket` leaves the bucket half empty and alive. A thread that has loaded the array
  before the resize locks this bucket and does not check again: it misses a present key, or inserts it a second time.
  (The documentation demands that `Hash` does not panic.)
* C61: an asynchronous operation that waited for a bucket holds no guard. `for_each_reader_async` (`iter_async`) that
  finds the bucket killed then reads `current_array.len()` (L562) of an array that may be reclaimed; keyed operations
  evaluate `current_array.bucket_index(hash)` (L278-282, L346-350, L429-433) before the reference is checked; and
  `check_ref` takes an array at a reused address for the old one, so that an index can be out of bounds.
* C49: a shrink decided on a sample that misses most entries puts them in overflow chains; `put` evicts from
  the main block of a bucket only, so chained entries stay. The cache then holds 131 entries with capacity 64,
  and after growing again 513 entries with a maximum capacity of 512.
* C48: relocated entries are not on the recency list of their new bucket, so after a resize the entries
  used last are evicted first.
* C18: `OccupiedEntry::update` inserts the new version and then marks the old one removed. If the old version is in
  a link and the insertion frees and uses a slot of the main block, a reader that has left the main block and
  reaches the link last finds neither; `peek` answers `None` for a key that is present all the time.
* C50: `insert` publishes the entry by the occupied bitmap and then stores the length of the bucket, which readers
  check first. An entry that one `peek` has returned is therefore missed by a later one until the length is stored.
