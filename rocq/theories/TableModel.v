(** The hash table: bucket arrays, incremental relocation, resizing, and the HashMap operations on
    top of it, executed by one thread at a time.

    Models src/hash_table.rs, src/hash_table/bucket_array.rs and src/hash_map.rs.  Conventions:
    - All lock acquisitions succeed (one thread), so the TRY_LOCK variants coincide with the
      blocking ones.  [Writer::lock_sync] on a killed bucket gives nothing; that is the [dead] flag.
    - Where the code would go round its retry loop (bucket found killed) the model returns the error
      value [None]: the theorems show it never happens with one thread.
    - [None] is also an out-of-range index, an arithmetic overflow, an uninitialised slot, fuel
      exhausted.
    - [same_gen] ([sg]) stands for the epoch comparison of the external [sdd] crate (HashIndex only).
    - Entries whose destructor the table runs are appended to the field [released].
    - [needs_drop::<(K, V)>()] is true. *)
From Coq Require Import NArith.
From stdpp Require Import prelude list numbers.
From Verif Require CapModel.
From Verif Require Import BucketModel.
Local Open Scope N_scope.

Section table.
Context {K V : Type} `{EqDecision K}.

(** A bucket with the poisoning state of its lock (bucket.rs [Writer::kill] L790). *)
Record cell := Cell { bkt : bucket K V; dead : bool }.
(** [BucketArray], bucket_array.rs L14-23; the linked array is a field of [table]. [cleared] is
    [num_cleared_buckets]. *)
Record barray := BArray { sz : CapModel.arr; bks : list cell; cleared : N }.
(** [cur] is [bucket_array], [old] the array linked to it, [mst] the [minimum_capacity] word with the
    live [Reserve] guards, [maxcap] is [maximum_capacity()], [garbage] the HashIndex garbage chain
    (hash_index.rs L1375-1389), [released] the entries dropped so far. *)
Record table := Table {
  cur : option barray; old : option barray; mst : CapModel.minst; maxcap : N;
  garbage : list barray; released : list (K * V) }.

Definition with_cur tb c := Table c (old tb) (mst tb) (maxcap tb) (garbage tb) (released tb).
Definition with_old tb o := Table (cur tb) o (mst tb) (maxcap tb) (garbage tb) (released tb).
Definition with_mst tb m := Table (cur tb) (old tb) m (maxcap tb) (garbage tb) (released tb).
Definition with_arrays tb c o := Table c o (mst tb) (maxcap tb) (garbage tb) (released tb).
Definition release tb es := Table (cur tb) (old tb) (mst tb) (maxcap tb) (garbage tb) (released tb ++ es).

Definition alen (a : barray) : N := CapModel.array_len (sz a).
Definition cell_at (a : barray) (i : N) : option cell := bks a !! N.to_nat i.
Definition set_cell (a : barray) (i : N) (c : cell) : barray :=
  BArray (sz a) (<[N.to_nat i := c]> (bks a)) (cleared a).

(** [i..j] as a list. *)
Definition range (i j : N) : list N := map (fun d => i + N.of_nat d) (seq 0 (N.to_nat (j - i))).

(** [BucketArray::new] L29-97: zeroed buckets. *)
Definition new_barray (capacity : N) : option barray :=
  s ← CapModel.arr_new capacity;
  Some (BArray s (replicate (N.to_nat (CapModel.array_len s)) (Cell new_bucket false)) 0).

(** An empty container: hash_map.rs [with_capacity_and_hasher] L206-227. *)
Definition new_table (capacity maximum : N) : option table :=
  if capacity =? 0 then
    Some (Table None None (CapModel.Build_minst 0 [] false) maximum [] [])
  else
    a ← new_barray capacity;
    Some (Table (Some a) None (CapModel.Build_minst (CapModel.num_slots (sz a)) [] false) maximum [] []).

(** ** Relocation *)

(** [EntryPtr::partial_hash], bucket.rs: the hash byte of the slot. *)
Definition entry_byte (b : bucket K V) (p : eptr) : option N :=
  bl ← ptr_block b p; i ← index p; hcell bl !! i.

(** One [extract_from] into bucket [i] of [a]: hash_table.rs L1051-1058, L1085-1092. *)
Definition move_entry (t : kind) (sg : N -> bool) (a : barray) (i h : N) (b : bucket K V) (p : eptr)
  : option (barray * bucket K V * list (K * V)) :=
  c ← cell_at a i;
  r ← extract_from t sg (bkt c) h b p;
  Some (set_cell a i (Cell r.1.2 (dead c)), r.1.1, r.2).

(** L1025-1033: offset from the target index, and hash.  [keep] is
    [old_array.len() >= current_array.len()]. *)
Definition entry_target (hash : K -> N) (keep : bool) (a : barray) (target : N) (b : bucket K V) (p : eptr)
  : option (N * N) :=
  if keep then h ← entry_byte b p; Some (0, h)
  else
    e ← get b p;
    let h := hash e.1 in
    let n := CapModel.bucket_index (sz a) h in
    if n <? target then None else Some (n - target, h).

(** The first loop L1024-1060 without pre-allocation: entries are moved at once. *)
Fixpoint direct_loop (fuel : nat) t sg hash (keep : bool) (target : N) (a : barray) (b : bucket K V)
  (p : eptr) (acc : list (K * V)) : option (barray * bucket K V * list (K * V)) :=
  match fuel with
  | O => None
  | S f =>
    match move_to_next t b p with
    | (p', false) => Some (a, b, acc)
    | (p', true) =>
      oh ← entry_target hash keep a target b p';
      r ← move_entry t sg a (target + oh.1) oh.2 b p';
      direct_loop f t sg hash keep target r.1.1 r.1.2 p' (acc ++ r.2)
    end
  end.

(** [dist] and [extended_dist] L1017-1018 as one list: slot [offset] counts the entries going to
    [target + offset]; it is extended on demand (L1044-1047). *)
Definition dist_add (dist : list nat) (offset : nat) : list nat :=
  let d := dist ++ replicate (S offset - length dist) 0%nat in
  alter S offset d.

(** The first loop with pre-allocation: counts, and caches up to [BUCKET_LEN] hashes (L1036-1039). *)
Fixpoint collect_loop (fuel : nat) t hash (keep : bool) (target : N) (a : barray) (b : bucket K V)
  (p : eptr) (dist : list nat) (hash_data : list N) (position : nat)
  : option (list nat * list N) :=
  match fuel with
  | O => None
  | S f =>
    match move_to_next t b p with
    | (p', false) => Some (dist, hash_data)
    | (p', true) =>
      oh ← entry_target hash keep a target b p';
      collect_loop f t hash keep target a b p' (dist_add dist (N.to_nat oh.1))
        (if (position =? BUCKET_LEN)%nat then hash_data else <[position := oh.2]> hash_data)
        (if (position =? BUCKET_LEN)%nat then position else S position)
    end
  end.

(** L1066-1072: slot reservation. *)
Fixpoint reserve_all (a : barray) (target : N) (dist : list nat) : option barray :=
  match dist with
  | [] => Some a
  | d :: ds =>
    if (d =? 0)%nat then reserve_all a (target + 1) ds
    else
      c ← cell_at a target;
      reserve_all (set_cell a target (Cell (reserve_slots (bkt c) d) (dead c))) (target + 1) ds
  end.

(** The second loop L1074-1093. *)
Fixpoint second_loop (fuel : nat) t sg hash (keep : bool) (target : N) (a : barray) (b : bucket K V)
  (p : eptr) (hash_data : list N) (position : nat) (acc : list (K * V))
  : option (barray * bucket K V * list (K * V)) :=
  match fuel with
  | O => None
  | S f =>
    match move_to_next t b p with
    | (p', false) => Some (a, b, acc)
    | (p', true) =>
      h ← (if keep then entry_byte b p'
           else if (position =? BUCKET_LEN)%nat then e ← get b p'; Some (hash e.1)
           else hash_data !! position);
      let i := if keep then target else CapModel.bucket_index (sz a) h in
      r ← move_entry t sg a i h b p';
      second_loop f t sg hash keep target r.1.1 r.1.2 p' hash_data
        (if keep then position else if (position =? BUCKET_LEN)%nat then position else S position)
        (acc ++ r.2)
    end
  end.

(** [relocate_bucket] L1003-1094.  Result: the current array, the emptied bucket, dropped entries. *)
Definition relocate_bucket t sg hash (a : barray) (target old_len : N) (b : bucket K V)
  : option (barray * bucket K V * list (K * V)) :=
  let keep := alen a <=? old_len in
  let pre_allocate := (alen a <? old_len) || (BUCKET_LEN <? blen b)%nat in
  let fuel := S (blen b) in
  if pre_allocate then
    dh ← collect_loop fuel t hash keep target a b null_ptr (replicate 8 0%nat)
           (replicate BUCKET_LEN 0) 0;
    a' ← reserve_all a target dh.1;
    second_loop fuel t sg hash keep target a' b null_ptr dh.2 0 []
  else direct_loop fuel t sg hash keep target a b null_ptr [].

(** [relocate_bucket_sync] L948-997 on bucket [i] of the old array, preceded by its lock acquisition:
    nothing happens if the bucket is already killed (L876-884, L1235-1244).
    Result: current array, old array, dropped entries. *)
Definition relocate_cell t sg hash (c o : barray) (i : N)
  : option (barray * barray * list (K * V)) :=
  x ← cell_at o i;
  if dead x then Some (c, o, [])
  else if (blen (bkt x) =? 0)%nat then
    k ← kill t (bkt x);
    Some (c, set_cell o i (Cell k.1 true), k.2)
  else
    let r := CapModel.from_index_to_range (alen o) (alen c) i in
    q ← relocate_bucket t sg hash c r.1 (alen o) (bkt x);
    k ← kill t q.1.2;
    Some (q.1.1, set_cell o i (Cell k.1 true), q.2 ++ k.2).
Fixpoint relocate_cells t sg hash (c o : barray) (is : list N) (acc : list (K * V))
  : option (barray * barray * list (K * V)) :=
  match is with
  | [] => Some (c, o, acc)
  | i :: is' => r ← relocate_cell t sg hash c o i; relocate_cells t sg hash r.1.1 r.1.2 is' (acc ++ r.2)
  end.

(** [dedup_bucket_sync] L859-888. *)
Definition dedup_bucket t sg hash (c o : barray) (i : N) : option (barray * barray * list (K * V)) :=
  let r := CapModel.from_index_to_range (alen c) (alen o) i in
  relocate_cells t sg hash c o (range r.1 r.2) [].

(** [BucketArray::drop], bucket_array.rs L192-217: the entries dropped with the array. *)
Fixpoint drop_cells (cs : list cell) : option (list (K * V)) :=
  match cs with
  | [] => Some []
  | c :: cs' => e ← drop_entries (bkt c); es ← drop_cells cs'; Some (e ++ es)
  end.
Definition drop_array (t : kind) (a : barray) : option (list (K * V)) :=
  let start := if decide (t = INDEX) then 0 else cleared a in
  drop_cells (drop (N.to_nat start) (bks a)).

(** [defer_reclaim]: L56-58 for HashMap and HashCache (the array is dropped), hash_index.rs
    L1375-1389 for HashIndex (it joins the garbage chain; the attempt to free earlier garbage is the
    separate function [dealloc_garbage]). *)
Definition defer_reclaim (t : kind) (tb : table) (a : barray) : option table :=
  if decide (t = INDEX) then
    Some (Table (cur tb) (old tb) (mst tb) (maxcap tb) (a :: garbage tb) (released tb))
  else es ← drop_array t a; Some (release tb es).

(** hash_index.rs L1192-1217, when the epoch has left the generation of the garbage. *)
Fixpoint drop_arrays (t : kind) (l : list barray) : option (list (K * V)) :=
  match l with
  | [] => Some []
  | a :: l' => e ← drop_array t a; es ← drop_arrays t l'; Some (e ++ es)
  end.
Definition dealloc_garbage (t : kind) (tb : table) : option table :=
  es ← drop_arrays t (garbage tb);
  Some (Table (cur tb) (old tb) (mst tb) (maxcap tb) [] (released tb ++ es)).

(** [incremental_rehash_sync] L1209-1256 with [start_incremental_rehash] L1098-1123 and
    [end_incremental_rehash] L1127-1154 (success).  The second component is the old array the caller
    still holds a reference to. *)
Definition incremental_rehash t sg hash (tb : table) : option (table * option barray) :=
  match cur tb, old tb with
  | Some c, Some o =>
    let current := cleared o in
    if (alen o <=? current) || (N.land current 31 =? 31) then Some (tb, Some o)
    else
      let base := N.ldiff current 31 in
      r ← relocate_cells t sg hash c o (range base (N.min (base + 32) (alen o))) [];
      let metadata := current + 33 - 1 in
      let o' := BArray (sz r.1.2) (bks r.1.2) metadata in
      let tb' := release (with_arrays tb (Some r.1.1) (Some o')) r.2 in
      if (N.land metadata 31 =? 0) && (alen o <=? metadata) then
        tb'' ← defer_reclaim t (with_old tb' None) o'; Some (tb'', Some o')
      else Some (tb', Some o')
  | _, _ => Some (tb, None)
  end.

(** The steps every access to bucket [i] of the current array takes first: L320-323, L394-397,
    L466-469, L590-593, L723-726.  If the rehash has just detached the old array, its buckets are all
    killed and the deduplication does nothing. *)
Definition prepare t sg hash (tb : table) (i : N) : option table :=
  r ← incremental_rehash t sg hash tb;
  match cur r.1, old r.1 with
  | Some c, Some o =>
    q ← dedup_bucket t sg hash c o i;
    Some (release (with_arrays r.1 (Some q.1.1) (Some q.1.2)) q.2)
  | _, _ => Some r.1
  end.

(** ** Resizing *)

Definition minimum (tb : table) : N := CapModel.minimum_capacity (mst tb).
Definition clen (c : cell) : N := N.of_nat (blen (bkt c)).

(** Killing all the buckets of an array, L1391-1398. *)
Fixpoint kill_all (t : kind) (cs : list cell) : option (list cell * list (K * V)) :=
  match cs with
  | [] => Some ([], [])
  | x :: cs' => k ← kill t (bkt x); r ← kill_all t cs'; Some (Cell k.1 true :: r.1, k.2 ++ r.2)
  end.

(** [try_resize] L1307-1429, for the current array. *)
Definition try_resize (t : kind) (tb : table) (sampling_index : N) : option table :=
  match cur tb, old tb with
  | Some c, None =>
    est ← CapModel.sample (sz c) (map clen (bks c)) sampling_index;
    d ← CapModel.resize_decision (CapModel.num_slots (sz c)) (minimum tb) (maxcap tb) est;
    match d with
    | CapModel.RNothing => Some tb
    | CapModel.RDropTable =>
      if forallb (fun x => clen x =? 0) (bks c) then
        (* All buckets are killed and the array is detached. *)
        r ← kill_all t (bks c);
        defer_reclaim t (release (with_cur tb None) r.2) (BArray (sz c) r.1 (cleared c))
      else Some tb
    | CapModel.RResize n =>
      a ← new_barray n;
      Some (with_arrays tb (Some a) (Some c))
    end
  | _, _ => Some tb
  end.

(** [try_enlarge] L1259-1280.  The [any] loop L1271-1276. *)
Fixpoint enlarge_any (a : barray) (threshold index i : N) (steps : nat) (num : N) : option bool :=
  match steps with
  | O => Some false
  | S s =>
    c ← cell_at a ((index + i) mod alen a);
    let num' := num + clen c in
    if threshold <? num' then Some true else enlarge_any a threshold index (i + 1) s num'
  end.
Definition try_enlarge (t : kind) (tb : table) (index num : N) : option table :=
  match cur tb, old tb with
  | Some c, None =>
    let s := CapModel.sample_size (sz c) in
    let threshold := s * 2 * 13 in
    full ← (if threshold <? num then Some true
            else enlarge_any c threshold index 1 (N.to_nat (s - 1)) num);
    if full : bool then try_resize t tb index else Some tb
  | _, _ => Some tb
  end.

(** [try_shrink] L1284-1304.  [None] of the inner option is the early exit. *)
Fixpoint shrink_count (a : barray) (threshold index i : N) (steps : nat) (num : N) : option (option N) :=
  match steps with
  | O => Some (Some num)
  | S s =>
    c ← cell_at a ((index + i) mod alen a);
    let num' := num + clen c in
    if threshold <=? num' then Some None else shrink_count a threshold index (i + 1) s num'
  end.
Definition try_shrink (t : kind) (tb : table) (index : N) : option table :=
  match cur tb, old tb with
  | Some c, None =>
    if minimum tb <? CapModel.num_slots (sz c) then
      let s := CapModel.sample_size (sz c) in
      let threshold := s * 32 / 8 in
      r ← shrink_count c threshold index 0 (N.to_nat s) 0;
      match r with
      | None => Some tb
      | Some n => if n <=? threshold then try_resize t tb index else Some tb
      end
    else Some tb
  | _, _ => Some tb
  end.

(** ** Access to buckets *)

(** Where the locked bucket is: in the current array or in the one just superseded. *)
Inductive which := Cur | Old.
Definition loc : Type := which * N.
Definition loc_array (tb : table) (w : which) : option barray :=
  match w with Cur => cur tb | Old => old tb end.
Definition loc_cell (tb : table) (l : loc) : option cell := a ← loc_array tb l.1; cell_at a l.2.
Definition set_loc (tb : table) (l : loc) (b : bucket K V) : option table :=
  a ← loc_array tb l.1; c ← cell_at a l.2;
  let a' := set_cell a l.2 (Cell b (dead c)) in
  Some (match l.1 with Cur => with_cur tb (Some a') | Old => with_old tb (Some a') end).
(** The bucket behind a lock that has been acquired; [None] if it was killed. *)
Definition lock (tb : table) (l : loc) : option (bucket K V) :=
  c ← loc_cell tb l; if dead c then None else Some (bkt c).

(** [get_or_create_bucket_array] L125-148. *)
Definition create (tb : table) : option table :=
  match cur tb with
  | Some _ => Some tb
  | None => a ← new_barray (minimum tb); Some (with_cur tb (Some a))
  end.

(** [writer_sync] L385-412. *)
Definition writer t sg hash (tb : table) (h : N) : option (table * loc) :=
  tb0 ← create tb;
  c0 ← cur tb0;
  let i := CapModel.bucket_index (sz c0) h in
  tb1 ← prepare t sg hash tb0 i;
  c ← cur tb1;
  x ← cell_at c i;
  tb2 ← (if (bool_decide (t <> CACHE) || (CapModel.num_slots (sz c) <? maxcap tb1))
            && (BUCKET_LEN - 1 <=? blen (bkt x))%nat && CapModel.initiate_sampling (sz c) h
         then try_enlarge t tb1 i (clen x) else Some tb1);
  let l := match old tb1, old tb2 with None, Some _ => (Old, i) | _, _ => (Cur, i) end in
  _ ← lock tb2 l;
  Some (tb2, l).

(** [optional_writer_sync] L458-478, and the locking part of [reader_sync] L306-329. *)
Definition optional_writer t sg hash (tb : table) (h : N) : option (table * option loc) :=
  match cur tb with
  | None => Some (tb, None)
  | Some c =>
    let i := CapModel.bucket_index (sz c) h in
    tb1 ← prepare t sg hash tb i;
    _ ← lock tb1 (Cur, i);
    Some (tb1, Some (Cur, i))
  end.

(** [LockedBucket::try_shrink] L1551-1566: only if the bucket is in the current array. *)
Definition locked_try_shrink (t : kind) (tb : table) (l : loc) : option table :=
  match l.1 with Cur => try_shrink t tb l.2 | Old => Some tb end.

(** [LockedBucket::remove] L1506-1520. *)
Definition locked_remove (t : kind) (tb : table) (l : loc) (p : eptr) : option (table * (K * V)) :=
  b ← lock tb l;
  r ← remove t b p;
  tb' ← set_loc tb l r.1.1;
  tb'' ← (if (blen r.1.1 =? 0)%nat then locked_try_shrink t tb' l else Some tb');
  Some (tb'', r.2).

(** ** HashMap operations (hash_map.rs) *)

(** [read_sync] L1054-1059 with [reader_sync]; [contains_sync] is [is_some] of it. *)
Definition read t sg hash (tb : table) (k : K) : option (table * option (K * V)) :=
  r ← optional_writer t sg hash tb (hash k);
  match r.2 with
  | None => Some (r.1, None)
  | Some l => b ← lock r.1 l; e ← search_entry t b k (hash k); Some (r.1, e)
  end.

(** [insert_sync] L564-573: [None] is [Ok(())], [Some (k, v)] is [Err((k, v))]. *)
Definition insert_sync t sg hash (tb : table) (k : K) (v : V) : option (table * option (K * V)) :=
  r ← writer t sg hash tb (hash k);
  b ← lock r.1 r.2;
  p ← get_entry_ptr t b k (hash k);
  if is_valid p then Some (r.1, Some (k, v))
  else
    q ← insert t sg b (hash k) (k, v);
    tb' ← set_loc r.1 r.2 q.1.1;
    Some (release tb' q.2, None).

(** [upsert_sync] L614-622 with [entry_sync] L334-352. *)
Definition upsert_sync t sg hash (tb : table) (k : K) (v : V) : option (table * option V) :=
  r ← writer t sg hash tb (hash k);
  b ← lock r.1 r.2;
  p ← get_entry_ptr t b k (hash k);
  if is_valid p then
    q ← replace_value b p v;
    tb' ← set_loc r.1 r.2 q.1;
    Some (tb', Some q.2)
  else
    q ← insert t sg b (hash k) (k, v);
    tb' ← set_loc r.1 r.2 q.1.1;
    Some (release tb' q.2, None).

(** [update_sync] L672-686; the updater maps the value to its new value and a result. *)
Definition update_sync {R} t sg hash (tb : table) (k : K) (f : K -> V -> V * R)
  : option (table * option R) :=
  r ← optional_writer t sg hash tb (hash k);
  match r.2 with
  | None => Some (r.1, None)
  | Some l =>
    b ← lock r.1 l;
    p ← get_entry_ptr t b k (hash k);
    if is_valid p then
      e ← get b p;
      q ← replace_value b p (f e.1 e.2).1;
      tb' ← set_loc r.1 l q.1;
      Some (tb', Some (f e.1 e.2).2)
    else Some (r.1, None)
  end.

(** [remove_if_sync] L926-944; the condition may modify the value.  [remove_sync] is the condition
    [true]. *)
Definition remove_if_sync t sg hash (tb : table) (k : K) (cond : V -> V * bool)
  : option (table * option (K * V)) :=
  r ← optional_writer t sg hash tb (hash k);
  match r.2 with
  | None => Some (r.1, None)
  | Some l =>
    b ← lock r.1 l;
    p ← get_entry_ptr t b k (hash k);
    if is_valid p then
      e ← get b p;
      q ← replace_value b p (cond e.2).1;
      tb' ← set_loc r.1 l q.1;
      if (cond e.2).2 then
        z ← locked_remove t tb' l p; Some (z.1, Some z.2)
      else Some (tb', None)
    else Some (r.1, None)
  end.

(** [len] = [num_entries] L163-180. *)
Definition usize_max : N := 2 ^ 64 - 1.
Definition saturating_add (a b : N) : N := N.min (a + b) usize_max.
Definition sum_len (start : N) (a : barray) : N :=
  fold_left (fun n c => saturating_add n (clen c)) (bks a) start.
Definition len t sg hash (tb : table) : option (table * N) :=
  match cur tb with
  | None => Some (tb, 0)
  | Some _ =>
    r ← incremental_rehash t sg hash tb;
    let n0 := match r.2 with Some o => sum_len 0 o | None => 0 end in
    c ← cur r.1;
    let n := sum_len n0 c in
    tb' ← (if (n =? 0) && (minimum r.1 =? 0) then try_resize t r.1 0 else Some r.1);
    Some (tb', n)
  end.

(** [is_empty] = negation of [has_entry] L183-203. *)
Definition has_any (a : barray) : bool := existsb (fun c => negb (clen c =? 0)) (bks a).
Definition is_empty t sg hash (tb : table) : option (table * bool) :=
  match cur tb with
  | None => Some (tb, true)
  | Some _ =>
    r ← incremental_rehash t sg hash tb;
    if match r.2 with Some o => has_any o | None => false end then Some (r.1, false)
    else
      c ← cur r.1;
      if has_any c then Some (r.1, false)
      else
        tb' ← (if minimum r.1 =? 0 then try_resize t r.1 0 else Some r.1);
        Some (tb', true)
  end.

(** ** Iteration *)

(** The loop over the entries of one bucket in [iter_sync] L1167-1176. *)
Fixpoint read_loop {S} (fuel : nat) t (f : S -> K * V -> S * bool) (s : S) (b : bucket K V) (p : eptr)
  : option (S * bool) :=
  match fuel with
  | O => None
  | Datatypes.S n =>
    match move_to_next t b p with
    | (_, false) => Some (s, true)
    | (p', true) =>
      e ← get b p';
      let r := f s e in
      if r.2 : bool then read_loop n t f r.1 b p' else Some (r.1, false)
    end
  end.
(** [for_each_reader_sync] L572-612 over the buckets [is] of the current array. *)
Fixpoint reader_loop {S} t sg hash (tb : table) (is : list N)
  (g : S -> bucket K V -> option (S * bool)) (s : S) : option (table * S * bool) :=
  match is with
  | [] => Some (tb, s, true)
  | i :: is' =>
    tb' ← prepare t sg hash tb i;
    b ← lock tb' (Cur, i);
    r ← g s b;
    if r.2 : bool then reader_loop t sg hash tb' is' g r.1 else Some (tb', r.1, false)
  end.
(** [iter_sync] L1164-1179. *)
Definition iter_sync {S} t sg hash (tb : table) (f : S -> K * V -> S * bool) (s : S)
  : option (table * S * bool) :=
  match cur tb with
  | None => Some (tb, s, true)
  | Some c =>
    reader_loop t sg hash tb (range 0 (alen c))
      (fun s b => read_loop (Datatypes.S (blen b)) t f s b null_ptr) s
  end.

(** The loop over the entries of one bucket in [iter_mut_sync] L1264-1277: the closure may change
    the value and either keeps the entry or consumes it ([ConsumableEntry::consume] L2293-2298), and
    tells whether to go on.  Result: bucket, closure state, consumed entries, whether to go on. *)
Record verdict {S : Type} := Verdict { v_state : S; v_value : V; v_keep : bool; v_go : bool }.
Arguments verdict : clear implicits.
Fixpoint mut_loop {S} (fuel : nat) t (f : S -> K * V -> verdict S) (s : S) (b : bucket K V) (p : eptr)
  (out : list (K * V)) : option (bucket K V * S * list (K * V) * bool) :=
  match fuel with
  | O => None
  | Datatypes.S n =>
    match move_to_next t b p with
    | (_, false) => Some (b, s, out, true)
    | (p', true) =>
      e ← get b p';
      let d := f s e in
      q ← replace_value b p' (v_value d);
      z ← (if v_keep d then Some (q.1, p', out)
           else r ← remove t q.1 p'; Some (r.1.1, r.1.2, out ++ [r.2]));
      if v_go d then mut_loop n t f (v_state d) z.1.1 z.1.2 z.2
      else Some (z.1.1, v_state d, z.2, false)
    end
  end.
(** [for_each_writer_sync] L700-763 over the buckets [is]; [out] collects the consumed entries. *)
Fixpoint writer_loop {S} t sg hash (tb : table) (is : list N)
  (g : S -> bucket K V -> option (bucket K V * S * list (K * V) * bool)) (s : S) (out : list (K * V))
  : option (table * S * list (K * V) * bool) :=
  match is with
  | [] => Some (tb, s, out, true)
  | i :: is' =>
    tb' ← prepare t sg hash tb i;
    b ← lock tb' (Cur, i);
    r ← g s b;
    tb'' ← set_loc tb' (Cur, i) r.1.1.1;
    if r.2 : bool then writer_loop t sg hash tb'' is' g r.1.1.2 (out ++ r.1.2)
    else Some (tb'', r.1.1.2, out ++ r.1.2, false)
  end.
(** [iter_mut_sync] L1261-1282; [removed] is set exactly if an entry was consumed, and then the table
    may shrink (L752-762). *)
Definition iter_mut_sync {S} t sg hash (tb : table) (f : S -> K * V -> verdict S) (s : S)
  : option (table * S * list (K * V) * bool) :=
  match cur tb with
  | None => Some (tb, s, [], true)
  | Some c =>
    r ← writer_loop t sg hash tb (range 0 (alen c))
          (fun s b => mut_loop (Datatypes.S (blen b)) t f s b null_ptr []) s [];
    tb' ← (match r.1.2 with [] => Some r.1.1.1 | _ => try_shrink t r.1.1.1 0 end);
    Some (tb', r.1.1.2, r.1.2, r.2)
  end.

(** [retain_sync] L1338-1348: the consumed entries are dropped.  The predicate may change the value. *)
Definition retain_sync {S} t sg hash (tb : table) (pred : S -> K * V -> S * V * bool) (s : S)
  : option (table * S) :=
  r ← iter_mut_sync t sg hash tb
        (fun s e => let d := pred s e in Verdict _ d.1.1 d.1.2 d.2 true) s;
  Some (release r.1.1.1 r.1.2, r.1.1.2).
(** [clear_sync] L1380-1382. *)
Definition clear_sync t sg hash (tb : table) : option table :=
  r ← retain_sync t sg hash tb (fun (_ : unit) e => (tt, e.2, false)) tt; Some r.1.

(** ** Capacity reservation *)

(** [reserve] L271-281 with [reserve_capacity] hash_table.rs L93-119.  The result is the amount of
    the guard, if one is created. *)
Definition reserve (t : kind) (tb : table) (n : N) : option (table * option N) :=
  r ← CapModel.min_step (maxcap tb) (mst tb) (CapModel.EvReserve n);
  let tb' := with_mst tb r.1 in
  tb'' ← (if maxcap tb - CapModel.masked (CapModel.word (mst tb)) <? n then Some tb'
          else try_resize t tb' 0);
  Some (tb'', r.2).
(** [Reserve::drop] L2371-2382 of the [i]-th live guard. *)
Definition unreserve (t : kind) (tb : table) (i : nat) : option table :=
  match CapModel.guards (mst tb) !! i with
  | None => Some tb
  | Some _ =>
    r ← CapModel.min_step (maxcap tb) (mst tb) (CapModel.EvDrop i);
    try_shrink t (with_mst tb r.1) 0
  end.

(** [capacity] L1440-1442 (hash_table.rs [num_slots] L152-159). *)
Definition capacity (tb : table) : N :=
  match cur tb with None => 0 | Some c => CapModel.num_slots (sz c) end.

(** Dropping the container, hash_map.rs L1595-1604 and hash_index.rs L1324-1345: the linked array is
    dropped first (bucket_array.rs L194-201). *)
Definition drop_table (t : kind) (tb : table) : option (list (K * V)) :=
  o ← match old tb with None => Some [] | Some o => drop_array t o end;
  c ← match cur tb with None => Some [] | Some c => drop_array t c end;
  g ← drop_arrays t (garbage tb);
  Some (released tb ++ o ++ c ++ g).

End table.
Arguments cell : clear implicits.
Arguments barray : clear implicits.
Arguments table : clear implicits.
Arguments verdict : clear implicits.
