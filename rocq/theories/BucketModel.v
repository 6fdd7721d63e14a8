(** One bucket of a hash table: bitmaps, partial hashes, fixed slots and the overflow chain.

    Models src/hash_table/bucket.rs.  Conventions:
    - [MaybeUninit<(K, V)>] slots are [option (K * V)]: [None] = uninitialised or moved out.  A
      [ptr::read] moves the value out, so the model sets the slot to [None]; dropping in place
      likewise.  Reading a [None] slot, indexing out of bounds and decrementing a zero length are
      modelled as [None] of the error monad.
    - The overflow chain ([link]/[prev_link] pointers) is the list of its blocks, head first;
      pointers into it are positions in that list.
    - u32 bitmaps are [N]; [a & !b] is [N.ldiff a b].
    - All functions here are called with the bucket exclusively locked (or, for the searches,
      share-locked), so they are sequential.  The lock is in LockModel/ConcModel.
    - [debug_assert]s are not modelled. *)
From stdpp Require Import prelude list numbers.
From Coq Require Import NArith.
From Verif Require Import LruModel.

(** L31-38. *)
Inductive kind := MAP | INDEX | CACHE.
Global Instance kind_eq_dec : EqDecision kind.
Proof. solve_decision. Defined.

(** L41, L106. *)
Definition BUCKET_LEN : nat := 32.
Definition LINKED_BUCKET_LEN : nat := 8.

(** [1_u32 << i]. *)
Definition bit (i : nat) : N := N.shiftl 1 (N.of_nat i).
Definition u32_max : N := 4294967295.

(** [u32::trailing_zeros]/[u32::trailing_ones]: the first set/clear bit, 32 if there is none. *)
Fixpoint first_bit (b : bool) (fuel i : nat) (m : N) : nat :=
  match fuel with
  | O => i
  | S f => if Bool.eqb (N.testbit m (N.of_nat i)) b then i else first_bit b f (S i) m
  end.
Definition trailing_zeros (m : N) : nat := first_bit true 32 0 m.
Definition trailing_ones (m : N) : nat := first_bit false 32 0 m.

(** [u32::count_ones]. *)
Definition count_ones (m : N) : nat :=
  length (filter (fun i => N.testbit m (N.of_nat i)) (seq 0 32)).

Section bucket.
Context {K V : Type} `{EqDecision K}.

(** [Metadata] L92-103 together with the data block it describes (L44; [Bucket]'s data block is
    stored in the array of data blocks, [LinkedBucket]'s inline).  [rem] is the removed bitmap
    (INDEX) or the LRU tail (CACHE). *)
Record block := Block {
  occ : N; rem : N; hcell : list N; data : list (option (K * V)) }.

(** [Bucket] L20-29 without its lock. *)
Record bucket := Bucket {
  blen : nat; main : block; links : list block; lru : list (nat * nat) }.

(** [EntryPtr] L59-64.  [index = None] is the fused value [usize::MAX]. *)
Record eptr := EPtr { link_ptr : option nat; index : option nat }.

Definition new_block (len : nat) : block :=
  Block 0 0 (replicate len 0%N) (replicate len None).

(** [Bucket::new] L122-134 (in production the zeroed memory of bucket_array.rs L48). *)
Definition new_bucket : bucket :=
  Bucket 0 (new_block BUCKET_LEN) [] (replicate 32 (0, 0)).

(** [EntryPtr::null] L906, [is_valid] L915. *)
Definition null_ptr : eptr := EPtr None (Some BUCKET_LEN).
Definition is_valid (p : eptr) : bool := negb (bool_decide (index p = Some BUCKET_LEN)).

(** L564-566. *)
Definition partial_hash (h : N) : N := (h mod 256)%N.

(** The bitmap of reachable entries: L694-699 and L1025-1031. *)
Definition live_bitmap (t : kind) (b : block) : N :=
  match t with INDEX => N.ldiff (occ b) (rem b) | _ => occ b end.

(** The vectorised mask loop, L702-706. *)
Fixpoint mask_loop (ph : N) (cells : list N) (i : nat) (bm : N) : N :=
  match cells with
  | [] => bm
  | c :: cs => mask_loop ph cs (S i) (if (c =? ph)%N then bm else N.ldiff bm (bit i))
  end.

(** The probing loop, L708-716.  Reading an uninitialised slot is an error. *)
Fixpoint probe_loop (fuel : nat) (k : K) (d : list (option (K * V))) (bm : N)
  : option (option (K * V * nat)) :=
  match fuel with
  | O => Some None
  | S f =>
    let o := trailing_zeros bm in
    if (o =? 32)%nat then Some None
    else
      s ← d !! o; e ← s;
      if decide (k = e.1) then Some (Some (e, o))
      else probe_loop f k d (N.ldiff bm (bit o))
  end.

(** [search_data_block] L685-719.  At most 32 bits are set, so 33 rounds suffice (proved). *)
Definition search_block (t : kind) (b : block) (k : K) (h : N) : option (option (K * V * nat)) :=
  probe_loop 33 k (data b) (mask_loop (partial_hash h) (hcell b) 0 (live_bitmap t b)).

Fixpoint search_links (t : kind) (j : nat) (ls : list block) (k : K) (h : N)
  : option (option (K * V * eptr)) :=
  match ls with
  | [] => Some None
  | l :: ls' =>
    r ← search_block t l k h;
    match r with
    | Some (e, i) => Some (Some (e, EPtr (Some j) (Some i)))
    | None => search_links t (S j) ls' k h
    end
  end.

(** [search_entry] L614-642 and [get_entry_ptr] L648-681: same traversal, the first returns the
    entry, the second its position. *)
Definition search (t : kind) (b : bucket) (k : K) (h : N) : option (option (K * V * eptr)) :=
  if (blen b =? 0)%nat then Some None
  else
    r ← search_block t (main b) k h;
    match r with
    | Some (e, i) => Some (Some (e, EPtr None (Some i)))
    | None => search_links t 0 (links b) k h
    end.
Definition search_entry (t : kind) (b : bucket) (k : K) (h : N) : option (option (K * V)) :=
  r ← search t b k h; Some (option_map fst r).
Definition get_entry_ptr (t : kind) (b : bucket) (k : K) (h : N) : option eptr :=
  r ← search t b k h; Some (match r with Some (_, p) => p | None => null_ptr end).

(** [EntryPtr::get]/[get_mut] L935-962: the slot a pointer refers to. *)
Definition ptr_block (b : bucket) (p : eptr) : option block :=
  match link_ptr p with None => Some (main b) | Some j => links b !! j end.
Definition get (b : bucket) (p : eptr) : option (K * V) :=
  bl ← ptr_block b p; i ← index p; s ← data bl !! i; s.
Definition set_ptr_block (b : bucket) (p : eptr) (bl : block) : bucket :=
  match link_ptr p with
  | None => Bucket (blen b) bl (links b) (lru b)
  | Some j => Bucket (blen b) (main b) (<[j := bl]> (links b)) (lru b)
  end.
Definition put_slot (bl : block) (i : nat) (s : option (K * V)) : block :=
  Block (occ bl) (rem bl) (hcell bl) (<[i := s]> (data bl)).
(** Writing a new value through [get_mut] (hash_map.rs OccupiedEntry::get_mut/insert).
    Result: the new bucket and the old value. *)
Definition replace_value (b : bucket) (p : eptr) (v : V) : option (bucket * V) :=
  bl ← ptr_block b p; i ← index p; e ← get b p;
  Some (set_ptr_block b p (put_slot bl i (Some (e.1, v))), e.2).

(** [insert_entry] L438-460. *)
Definition insert_entry (bl : block) (i : nat) (occupied : N) (h : N) (e : K * V) : option block :=
  _ ← data bl !! i; _ ← hcell bl !! i;
  Some (Block (N.lor occupied (bit i)) (rem bl)
              (<[i := partial_hash h]> (hcell bl)) (<[i := Some e]> (data bl))).

(** [insert_overflow] L393-434.  Result: new chain and the position of the entry. *)
Fixpoint insert_links (j : nat) (ls : list block) (h : N) (e : K * V)
  : option (list block * option (nat * nat)) :=
  match ls with
  | [] => Some ([], None)
  | l :: ls' =>
    let free := trailing_ones (occ l) in
    if (free =? LINKED_BUCKET_LEN)%nat then
      r ← insert_links (S j) ls' h e; Some (l :: r.1, r.2)
    else
      l' ← insert_entry l free (occ l) h e; Some (l' :: ls', Some (j, free))
  end.
Definition insert_overflow (b : bucket) (h : N) (e : K * V) : option (bucket * eptr) :=
  r ← insert_links 0 (links b) h e;
  match r with
  | (ls, Some (j, i)) =>
      Some (Bucket (blen b + 1) (main b) ls (lru b), EPtr (Some j) (Some i))
  | (_, None) =>
      let nb := new_block LINKED_BUCKET_LEN in
      let link := Block 1 0 (<[0%nat := partial_hash h]> (hcell nb)) (<[0%nat := Some e]> (data nb)) in
      Some (Bucket (blen b + 1) (main b) (link :: links b) (lru b), EPtr (Some 0%nat) (Some 0%nat))
  end.

(** [drop_unreachable_entries] L498-534.  [same_gen c] is
    [Epoch::try_from(c).is_ok_and(|e| e.in_same_generation(current_epoch))] of the external
    [sdd] crate.  Result: the new block and the dropped entries. *)
Fixpoint gen_mask (same_gen : N -> bool) (cells : list N) (i : nat) (bm : N) : N :=
  match cells with
  | [] => bm
  | c :: cs => gen_mask same_gen cs (S i) (if same_gen c then N.ldiff bm (bit i) else bm)
  end.
(** The drop loops L526-530, L384-388, L1266-1270: drops the slots in the bitmap in order. *)
Fixpoint drop_loop (fuel : nat) (d : list (option (K * V))) (bm : N)
  : option (list (option (K * V)) * list (K * V)) :=
  match fuel with
  | O => Some (d, [])
  | S f =>
    if (bm =? 0)%N then Some (d, [])
    else
      let i := trailing_zeros bm in
      s ← d !! i; e ← s;
      r ← drop_loop f (<[i := None]> d) (N.sub bm (bit i));
      Some (r.1, e :: r.2)
  end.
Definition drop_unreachable (same_gen : N -> bool) (bl : block) : option (block * list (K * V)) :=
  let dropped := gen_mask same_gen (hcell bl) 0 (rem bl) in
  let occupied := N.ldiff (occ bl) dropped in
  let removed := N.ldiff (rem bl) dropped in
  r ← drop_loop 33 (data bl) dropped;
  Some (Block occupied removed (hcell bl) r.1, r.2).

(** [clear_unreachable_entries] L463-495.  The chain is processed from its last block backwards;
    trailing blocks that become empty are unlinked. *)
Fixpoint clear_links (same_gen : N -> bool) (ls : list block)
  : option (list block * list (K * V)) :=
  match ls with
  | [] => Some ([], [])
  | l :: ls' =>
    r ← clear_links same_gen ls';
    q ← drop_unreachable same_gen l;
    Some (if (occ q.1 =? 0)%N && (length r.1 =? 0)%nat then [] else q.1 :: r.1, r.2 ++ q.2)
  end.
Definition clear_unreachable (same_gen : N -> bool) (b : bucket)
  : option (bucket * list (K * V)) :=
  r ← clear_links same_gen (links b);
  q ← drop_unreachable same_gen (main b);
  Some (Bucket (blen b) q.1 r.1 (lru b), r.2 ++ q.2).

(** [insert] L144-177: the clean-up of a HashIndex bucket whose main block is full (L150-158),
    then the insertion (L160-176).  Result: the bucket, the position of the new entry, dropped
    entries. *)
Definition insert_clear (t : kind) (same_gen : N -> bool) (b : bucket)
  : option (bucket * list (K * V)) :=
  if bool_decide (t = INDEX) && (occ (main b) =? u32_max)%N && negb (rem (main b) =? 0)%N
  then clear_unreachable same_gen b else Some (b, []).
Definition insert_core (b : bucket) (h : N) (e : K * V) : option (bucket * eptr) :=
  let free := trailing_ones (occ (main b)) in
  if (free =? BUCKET_LEN)%nat then insert_overflow b h e
  else
    bl ← insert_entry (main b) free (occ (main b)) h e;
    Some (Bucket (blen b + 1) bl (links b) (lru b), EPtr None (Some free)).
Definition insert (t : kind) (same_gen : N -> bool) (b : bucket) (h : N) (e : K * V)
  : option (bucket * eptr * list (K * V)) :=
  r ← insert_clear t same_gen b;
  q ← insert_core r.1 h e;
  Some (q.1, q.2, r.2).

(** [self.len.store(self.len.load() - 1)]. *)
Definition dec_len (n : nat) : option nat := match n with O => None | S m => Some m end.

(** [remove_from_lru_list] L546-559 and [update_lru_tail] L285-298; the tail is in [rem]. *)
Definition bucket_lru (b : bucket) : LruModel.lru := Lru (lru b) (N.to_nat (rem (main b))).
Definition with_lru (b : bucket) (s : LruModel.lru) : bucket :=
  Bucket (blen b)
         (Block (occ (main b)) (N.of_nat (tail s)) (hcell (main b)) (data (main b)))
         (links b) (cells s).
Definition remove_from_lru_list (b : bucket) (i : nat) : option bucket :=
  s ← lru_remove (bucket_lru b) i; Some (with_lru b s).
Definition update_lru_tail (b : bucket) (p : eptr) : option bucket :=
  match link_ptr p with
  | Some _ => Some b
  | None => i ← index p; s ← lru_promote (bucket_lru b) i; Some (with_lru b s)
  end.

(** [remove] L181-218 and [EntryPtr::unlink] L989-1014.  Result: bucket, moved pointer, entry. *)
Definition remove (t : kind) (b : bucket) (p : eptr) : option (bucket * eptr * (K * V)) :=
  n ← dec_len (blen b);
  i ← index p;
  e ← get b p;
  match link_ptr p with
  | Some j =>
    l ← links b !! j;
    let occupied := N.ldiff (occ l) (bit i) in
    let l' := Block occupied (rem l) (hcell l) (<[i := None]> (data l)) in
    if (occupied =? 0)%N && bool_decide (t <> INDEX) then
      let p' := if (S j <? length (links b))%nat
                then EPtr (Some j) (Some LINKED_BUCKET_LEN) else EPtr None None in
      Some (Bucket n (main b) (delete j (links b)) (lru b), p', e)
    else Some (Bucket n (main b) (<[j := l']> (links b)) (lru b), p, e)
  | None =>
    b1 ← (if decide (t = CACHE) then remove_from_lru_list b i else Some b);
    let m := main b1 in
    Some (Bucket n (Block (N.ldiff (occ m) (bit i)) (rem m) (hcell m) (<[i := None]> (data m)))
                 (links b1) (lru b1), p, e)
  end.

(** [mark_removed] L222-250; [epoch] is the byte of the current epoch. *)
Definition mark_removed (b : bucket) (p : eptr) (epoch : N) : option bucket :=
  n ← dec_len (blen b);
  i ← index p;
  bl ← ptr_block b p;
  _ ← hcell bl !! i;
  let bl' := Block (occ bl) (N.lor (rem bl) (bit i)) (<[i := epoch]> (hcell bl)) (data bl) in
  let b' := set_ptr_block b p bl' in
  Some (Bucket n (main b') (links b') (lru b')).

(** A pointer to a block of the chain is the block's address in the code and its position here:
    when an insertion puts a new block in front of the chain, positions move up. *)
Definition shift_ptr (b b' : bucket) (p : eptr) : eptr :=
  EPtr (option_map (fun j => j + (length (links b') - length (links b)))%nat (link_ptr p)) (index p).

(** hash_index.rs [OccupiedEntry::update] L1887-1899: the new version is inserted, then the old one
    is marked removed.  [h] is the partial hash byte of the entry.  Result: bucket, position of the
    new version, dropped entries. *)
Definition update_index (same_gen : N -> bool) (b : bucket) (p : eptr) (v : V) (epoch : N)
  : option (bucket * eptr * list (K * V)) :=
  e ← get b p;
  bl ← ptr_block b p; i ← index p; h ← hcell bl !! i;
  r ← insert_clear INDEX same_gen b;
  q ← insert_core r.1 h (e.1, v);
  b2 ← mark_removed q.1 (shift_ptr r.1 q.1 p) epoch;
  Some (b2, q.2, r.2).

(** [evict_lru_head] L254-281. *)
Definition evict_lru_head (b : bucket) : option (bucket * option (K * V)) :=
  if (occ (main b) =? u32_max)%N then
    n ← dec_len (blen b);
    r ← lru_evict (bucket_lru b);
    let b1 := with_lru b r.1 in
    let i := match r.2 with Some i => i | None => 0%nat end in
    let m := main b1 in
    s ← data m !! i; e ← s;
    Some (Bucket n (Block (N.ldiff (occ m) (bit i)) (rem m) (hcell m) (<[i := None]> (data m)))
                 (links b1) (lru b1), Some e)
  else Some (b, None).

(** [reserve_slots] L302-327. *)
Fixpoint reserve_links (capacity additional : nat) (ls : list block) (fuel : nat) : list block :=
  match fuel with
  | O => ls
  | S f =>
    match ls with
    | [] => []
    | l :: ls' =>
      let c := (capacity + (LINKED_BUCKET_LEN - count_ones (occ l)))%nat in
      if (additional <=? c)%nat then ls
      else
        let ls'' := match ls' with [] => [new_block LINKED_BUCKET_LEN] | _ => ls' end in
        l :: reserve_links c additional ls'' f
    end
  end.
Definition reserve_slots (b : bucket) (additional : nat) : bucket :=
  let capacity := (BUCKET_LEN - count_ones (occ (main b)))%nat in
  if (capacity <? additional)%nat then
    Bucket (blen b) (main b)
           (reserve_links capacity additional (links b) (length (links b) + additional + 1))
           (lru b)
  else b.

(** [extract_from] L331-368: moves the entry at [p] of [from] into [to].
    Result: source, target, dropped entries. *)
Definition extract_from (t : kind) (same_gen : N -> bool) (to : bucket) (h : N)
  (from : bucket) (p : eptr) : option (bucket * bucket * list (K * V)) :=
  e ← get from p;
  r ← insert t same_gen to h e;
  bl ← ptr_block from p;
  i ← index p;
  let bl' := Block (N.ldiff (occ bl) (bit i)) (rem bl) (hcell bl) (<[i := None]> (data bl)) in
  let from' := set_ptr_block from p bl' in
  n ← dec_len (blen from);
  Some (Bucket n (main from') (links from') (lru from'), r.1.1, r.2).

(** [next_entry] L1020-1044: the index of the next reachable entry of the block. *)
Definition next_index (t : kind) (len : nat) (b : block) (i : nat) : option nat :=
  let c := if (i =? len)%nat then 0%nat else S i in
  if (c <? len)%nat then
    let n := trailing_zeros (N.ldiff (live_bitmap t b) (N.ones (N.of_nat c))) in
    if (n <? len)%nat then Some n else None
  else None.
(** The link loop of [move_to_next], L973-980; [ls] are the links from position [j] on. *)
Fixpoint walk_links (t : kind) (j : nat) (ls : list block) (i : nat) : eptr * bool :=
  match ls with
  | [] => (EPtr None None, false)
  | l :: ls' =>
    match next_index t LINKED_BUCKET_LEN l i with
    | Some n => (EPtr (Some j) (Some n), true)
    | None => walk_links t (S j) ls' LINKED_BUCKET_LEN
    end
  end.
(** [move_to_next] L968-984. *)
Definition move_to_next (t : kind) (b : bucket) (p : eptr) : eptr * bool :=
  match index p with
  | None => (p, false)
  | Some i =>
    match link_ptr p with
    | None =>
      match next_index t BUCKET_LEN (main b) i with
      | Some n => (EPtr None (Some n), true)
      | None => walk_links t 0 (links b) LINKED_BUCKET_LEN
      end
    | Some j => walk_links t j (drop j (links b)) i
    end
  end.

(** [drop_entries] L373-390 with [LinkedBucket::drop] L1261-1273: the entries dropped when the
    bucket array is dropped ([needs_drop] = true). *)
Fixpoint drop_links (ls : list block) : option (list (K * V)) :=
  match ls with
  | [] => Some []
  | l :: ls' => r ← drop_loop 33 (data l) (occ l); rs ← drop_links ls'; Some (r.2 ++ rs)
  end.
Definition drop_entries (b : bucket) : option (list (K * V)) :=
  rs ← drop_links (links b); r ← drop_loop 33 (data (main b)) (occ (main b)); Some (rs ++ r.2).

(** [Writer::kill] L790-819 with [needs_drop] = true: for MAP and CACHE the chain is dropped. *)
Definition kill (t : kind) (b : bucket) : option (bucket * list (K * V)) :=
  if decide (t = INDEX) then Some (b, [])
  else r ← drop_links (links b); Some (Bucket (blen b) (main b) [] (lru b), r).

End bucket.
Arguments block : clear implicits.
Arguments bucket : clear implicits.
