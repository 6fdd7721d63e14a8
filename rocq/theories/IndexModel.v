(** HashIndex: its operations executed by one thread at a time, its iterator, cloning, comparison and
    collection, and histories of operations.

    Models src/hash_index.rs on top of TableModel.v.  Conventions:
    - Epochs are the external [sdd] crate's business.  What the code reads of them during an operation
      is an argument [env] of the operation, and the theorems hold for every choice of it:
      [same_gen c] is [Epoch::try_from(c).is_ok_and(|e| e.in_same_generation(current))], [epoch] the
      byte of the current epoch, [expired] whether the garbage chain has left its generation when the
      operation starts (L1198), and [cut = Some n] means that a [defer_reclaim] inside the operation
      (L1377, [reclaim_memory]) has freed all but the [n] newest arrays of the chain.  No operation looks
      into the chain, so freeing is modelled at the end of the operation.  The epoch is the same for
      the whole of one operation.
    - [guard.accelerate] and [set_has_garbage] are hints for the epoch and are left out.
    - Lock-free reads by other threads are in PeekModel.v. *)
From Coq Require Import NArith.
From stdpp Require Import prelude list numbers.
From Verif Require CapModel.
From Verif Require Import BucketModel TableModel.
Local Open Scope N_scope.

Record env := Env { same_gen : N -> bool; epoch : N; expired : bool; cut : option nat }.

(** What the owner of an entry does with it: leave it, store a new value, remove it. *)
Inductive act (V : Type) := Keep | Store (v : V) | Remove.
Arguments Keep {V}. Arguments Store {V}. Arguments Remove {V}.

Section index_model.
Context {K V : Type} `{EqDecision K}.
Implicit Types tb : table K V.

(** hash_index.rs [with_capacity_and_hasher] L176-199; hash_table.rs L1445 for the maximum. *)
Definition new_index (capacity : N) : option (table K V) := new_table capacity CapModel.MAXIMUM_CAPACITY_LIMIT.

(** [reclaim_memory] L1184-1188 with [dealloc_garbage] L1191-1217. *)
Definition reclaim_memory (e : env) tb : option (table K V) :=
  if expired e then dealloc_garbage INDEX tb else Some tb.
(** The effect of [reclaim_memory] inside [defer_reclaim] L1377, see above. *)
Definition settle (e : env) tb : option (table K V) :=
  match cut e with
  | None => Some tb
  | Some n =>
    es ← drop_arrays INDEX (drop n (garbage tb));
    Some (Table (cur tb) (old tb) (mst tb) (maxcap tb) (take n (garbage tb)) (released tb ++ es))
  end.

(** [LockedBucket::mark_removed], hash_table.rs L1523-1538. *)
Definition locked_mark_removed (e : env) tb (l : loc) (p : eptr) : option (table K V) :=
  b ← lock tb l;
  b' ← mark_removed b p (epoch e);
  tb' ← set_loc tb l b';
  if (blen b' =? 0)%nat then locked_try_shrink INDEX tb' l else Some tb'.
(** [OccupiedEntry::update] L1887-1899. *)
Definition locked_update (e : env) tb (l : loc) (p : eptr) (v : V) : option (table K V) :=
  b ← lock tb l;
  r ← update_index (same_gen e) b p v (epoch e);
  tb' ← set_loc tb l r.1.1;
  Some (release tb' r.2).
(** What is done with an occupied entry: [update], or [remove_entry] L1635-1638. *)
Definition occupied (e : env) tb (l : loc) (p : eptr) (a : act V) : option (table K V) :=
  match a with
  | Keep => Some tb
  | Store v => locked_update e tb l p v
  | Remove => locked_mark_removed e tb l p
  end.

(** [insert_sync] L543-553: [None] is [Ok(())], [Some (k, v)] is [Err((k, v))]. *)
Definition insert_sync (e : env) hash tb (k : K) (v : V) : option (table K V * option (K * V)) :=
  tb ← reclaim_memory e tb;
  TableModel.insert_sync INDEX (same_gen e) hash tb k v.

(** [entry_sync] L310-329 (which does not reclaim memory) followed by what the caller does with the
    entry as a function of the value found: on a vacant entry [Store v] is [VacantEntry::insert_entry]
    L1987-1994 and anything else drops it unused.  The result is the value found. *)
Definition entry_sync (e : env) hash tb (k : K) (f : option V -> act V) : option (table K V * option V) :=
  r ← writer INDEX (same_gen e) hash tb (hash k);
  b ← lock r.1 r.2;
  p ← get_entry_ptr INDEX b k (hash k);
  if is_valid p then
    x ← get b p;
    tb' ← occupied e r.1 r.2 p (f (Some x.2));
    Some (tb', Some x.2)
  else
    match f None with
    | Store v =>
      q ← insert INDEX (same_gen e) b (hash k) (k, v);
      tb' ← set_loc r.1 r.2 q.1.1;
      Some (release tb' q.2, None)
    | _ => Some (r.1, None)
    end.

(** [get_sync] L732-749, then what the caller does with the entry; the result is the value found. *)
Definition get_sync (e : env) hash tb (k : K) (f : V -> act V) : option (table K V * option V) :=
  tb ← reclaim_memory e tb;
  r ← optional_writer INDEX (same_gen e) hash tb (hash k);
  match r.2 with
  | None => Some (r.1, None)
  | Some l =>
    b ← lock r.1 l;
    p ← get_entry_ptr INDEX b k (hash k);
    if is_valid p then
      x ← get b p;
      tb' ← occupied e r.1 l p (f x.2);
      Some (tb', Some x.2)
    else Some (r.1, None)
  end.

(** [remove_if_sync] L659-675; [remove_sync] is the condition [true]. *)
Definition remove_if_sync (e : env) hash tb (k : K) (cond : V -> bool) : option (table K V * bool) :=
  tb ← reclaim_memory e tb;
  r ← optional_writer INDEX (same_gen e) hash tb (hash k);
  match r.2 with
  | None => Some (r.1, false)
  | Some l =>
    b ← lock r.1 l;
    p ← get_entry_ptr INDEX b k (hash k);
    if is_valid p then
      x ← get b p;
      if cond x.2 then tb' ← locked_mark_removed e r.1 l p; Some (tb', true)
      else Some (r.1, false)
    else Some (r.1, false)
  end.

(** [peek] L782-788, [peek_with] L818-825, with [peek_entry] hash_table.rs L224-261.  The array found at
    the end of the loop is the one it started with (one thread), so the loop is left.  A killed bucket
    is searched as well. *)
Definition search_array hash (a : barray K V) (k : K) : option (option (K * V)) :=
  x ← cell_at a (CapModel.bucket_index (sz a) (hash k));
  search_entry INDEX (bkt x) k (hash k).
Definition peek (e : env) hash tb (k : K) : option (table K V * option (K * V)) :=
  tb ← reclaim_memory e tb;
  match cur tb, old tb with
  | None, _ => Some (tb, None)
  | Some c, None => r ← search_array hash c k; Some (tb, r)
  | Some _, Some _ =>
    r ← incremental_rehash INDEX (same_gen e) hash tb;
    o ← r.2;
    c ← cur r.1;
    x ← search_array hash o k;
    match x with
    | Some en => Some (r.1, Some en)
    | None => y ← search_array hash c k; Some (r.1, y)
    end
  end.

(** The closure of [retain_sync] L992-1002 over one bucket; [out] are the entries marked removed. *)
Fixpoint mark_loop {S} (fuel : nat) (ep : N) (f : S -> K * V -> S * bool) (s : S) (b : bucket K V) (p : eptr)
  (out : list (K * V)) : option (bucket K V * S * list (K * V) * bool) :=
  match fuel with
  | O => None
  | Datatypes.S n =>
    match move_to_next INDEX b p with
    | (_, false) => Some (b, s, out, true)
    | (p', true) =>
      x ← get b p';
      let d := f s x in
      if d.2 : bool then mark_loop n ep f d.1 b p' out
      else b' ← mark_removed b p' ep; mark_loop n ep f d.1 b' p' (out ++ [x])
    end
  end.
(** [retain_sync] L989-1004 with [for_each_writer_sync] hash_table.rs L700-763. *)
Definition retain_sync {S} (e : env) hash tb (pred : S -> K * V -> S * bool) (s : S) : option (table K V * S) :=
  tb ← reclaim_memory e tb;
  match cur tb with
  | None => Some (tb, s)
  | Some c =>
    r ← writer_loop INDEX (same_gen e) hash tb (TableModel.range 0 (alen c))
          (fun s b => mark_loop (Datatypes.S (blen b)) (epoch e) pred s b null_ptr []) s [];
    tb' ← (match r.1.2 with [] => Some r.1.1.1 | _ => try_shrink INDEX r.1.1.1 0 end);
    Some (tb', r.1.1.2)
  end.
(** [clear_sync] L1035-1037. *)
Definition clear_sync (e : env) hash tb : option (table K V) :=
  r ← retain_sync e hash tb (fun (_ : unit) _ => (tt, false)) tt; Some r.1.

(** [iter_sync] L912-928. *)
Definition iter_sync {S} (e : env) hash tb (f : S -> K * V -> S * bool) (s : S) : option (table K V * S * bool) :=
  tb ← reclaim_memory e tb; TableModel.iter_sync INDEX (same_gen e) hash tb f s.

(** ** The iterator *)

(** [Iter]: the array being scanned is the current or the old one (the table is not changed while the
    iterator is in use); [it_bucket] is whether the field [bucket] is [Some] (it is always bucket
    [it_index] of the array). *)
Record iter := Iter { it_array : option which; it_index : N; it_bucket : bool; it_ptr : eptr }.
(** [iter] L1171-1180. *)
Definition iter_new : iter := Iter None 0 false null_ptr.
(** The loop of [next] L2117-2163. *)
Fixpoint next_loop (fuel : nat) tb (w : which) (it : iter) : option (iter * option (K * V)) :=
  match fuel with
  | O => None
  | S n =>
    a ← loc_array tb w;
    m ← (if it_bucket it then
           x ← cell_at a (it_index it);
           match move_to_next INDEX (bkt x) (it_ptr it) with
           | (p', true) => en ← get (bkt x) p'; Some (Some (p', en))
           | _ => Some None
           end
         else Some None);
    match m with
    | Some (p', en) => Some (Iter (Some w) (it_index it) true p', Some en)
    | None =>
      if it_index it + 1 =? alen a then
        match cur tb, w with
        | None, _ | Some _, Cur => Some (Iter (Some w) 0 false null_ptr, None)
        | Some _, Old => next_loop n tb Cur (Iter (Some Cur) 0 true null_ptr)
        end
      else next_loop n tb w (Iter (Some w) (it_index it + 1) true null_ptr)
    end
  end.
(** [Iter::next] L2099-2165. *)
Definition olen (a : option (barray K V)) : nat := match a with Some a => N.to_nat (alen a) | None => 0%nat end.
Definition next tb (it : iter) : option (iter * option (K * V)) :=
  let fuel := S (olen (old tb) + olen (cur tb)) in
  match it_array it with
  | Some w => next_loop fuel tb w it
  | None =>
    match cur tb with
    | None => Some (it, None)
    | Some _ =>
      let w := match old tb with Some _ => Old | None => Cur end in
      next_loop fuel tb w (Iter (Some w) (it_index it) true (it_ptr it))
    end
  end.
(** [n] calls of [next] and their results. *)
Fixpoint nexts (n : nat) tb (it : iter) : option (iter * list (option (K * V))) :=
  match n with
  | O => Some (it, [])
  | S m => r ← next tb it; q ← nexts m tb r.1; Some (q.1, r.2 :: q.2)
  end.
(** A [for] loop: the entries up to the first [None].  [fuel] must exceed their number. *)
Fixpoint for_loop (fuel : nat) tb (it : iter) : option (list (K * V)) :=
  match fuel with
  | O => None
  | S n =>
    r ← next tb it;
    match r.2 with
    | None => Some []
    | Some en => es ← for_loop n tb r.1; Some (en :: es)
    end
  end.
Definition cells_len (a : option (barray K V)) : nat :=
  match a with Some a => sum_list (map (fun x => blen (bkt x)) (bks a)) | None => 0%nat end.
Definition iter_all tb : option (list (K * V)) :=
  for_loop (S (cells_len (old tb) + cells_len (cur tb))) tb iter_new.

(** ** Whole containers *)

(** Inserting a sequence, keeping the first of several equal keys: the loops of [clone] L1228-1234,
    [from_iter] L1351-1362 and serde.rs L226-228.  Rejected pairs are dropped by the caller; they are
    the second component. *)
Fixpoint insert_all (e : env) hash tb (l : list (K * V)) : option (table K V * list (K * V)) :=
  match l with
  | [] => Some (tb, [])
  | x :: l' =>
    r ← insert_sync e hash tb x.1 x.2;
    q ← insert_all e hash r.1 l';
    Some (q.1, match r.2 with Some y => y :: q.2 | None => q.2 end)
  end.
(** [clone]: [K::clone] and [V::clone] are exact. *)
Definition clone (e : env) hash tb : option (table K V) :=
  c ← new_index (capacity tb);
  es ← iter_all tb;
  r ← insert_all e hash c es;
  Some r.1.
Definition from_iter (e : env) hash (hint : N * option N) (l : list (K * V)) : option (table K V * list (K * V)) :=
  c ← CapModel.capacity_from_size_hint hint.1 hint.2;
  tb ← new_index c;
  insert_all e hash tb l.

(** [eq] L1409-1422 of two different containers: the [any] over one iterator, peeking into the other
    container.  [any] stops at the first difference; here the remaining entries are not looked at
    either.  Result: the other container and whether all entries agreed. *)
Fixpoint all_in `{EqDecision V} (e : env) hash (es : list (K * V)) (o : table K V) : option (table K V * bool) :=
  match es with
  | [] => Some (o, true)
  | x :: es' =>
    r ← peek e hash o x.1;
    if bool_decide (option_map snd r.2 = Some x.2) then all_in e hash es' r.1 else Some (r.1, false)
  end.
Definition eq_sync `{EqDecision V} (e : env) hash1 hash2 tb1 tb2 : option (table K V * table K V * bool) :=
  tb1 ← reclaim_memory e tb1;
  es1 ← iter_all tb1;
  r ← all_in e hash2 es1 tb2;
  if r.2 : bool then
    es2 ← iter_all r.1;
    q ← all_in e hash1 es2 tb1;
    Some (q.1, r.1, q.2)
  else Some (tb1, r.1, false).

(** serde.rs L255-272: the announced length, and the entries written by a serializer that does not
    fail. *)
Definition serialize (e : env) hash tb : option (table K V * (N * list (K * V))) :=
  n ← len INDEX (same_gen e) hash tb;
  es ← iter_all n.1;
  Some (n.1, (n.2, es)).
(** serde.rs L217-229: [hint] is [access.size_hint()]. *)
Definition SERDE_MAX_CAPACITY : N := 2 ^ 24.
Definition deserialize (e : env) hash (hint : option N) (l : list (K * V)) : option (table K V * list (K * V)) :=
  tb ← new_index (N.min (match hint with Some n => n | None => 0 end) SERDE_MAX_CAPACITY);
  insert_all e hash tb l.

(** ** Histories *)
Inductive iop :=
| IInsert (k : K) (v : V)
| IEntry (k : K) (f : option V -> act V)
| IGet (k : K) (f : V -> act V)
| IRemoveIf (k : K) (cond : V -> bool)
| IPeek (k : K)
| ILen
| IIsEmpty
| IScan
| IIter
| IRetain (pred : K * V -> bool)
| IClear
| IReserve (n : N)
| IUnreserve (i : nat).
Inductive iout :=
| JUnit
| JEntry (e : option (K * V))
| JValue (v : option V)
| JBool (b : bool)
| JCount (n : N)
| JEntries (l : list (K * V)).

(** [IScan] collects all entries with [iter_sync], [IIter] with the iterator. *)
Definition icore (e : env) hash tb (o : iop) : option (table K V * iout) :=
  match o with
  | IInsert k v => r ← insert_sync e hash tb k v; Some (r.1, JEntry r.2)
  | IEntry k f => r ← entry_sync e hash tb k f; Some (r.1, JValue r.2)
  | IGet k f => r ← get_sync e hash tb k f; Some (r.1, JValue r.2)
  | IRemoveIf k c => r ← remove_if_sync e hash tb k c; Some (r.1, JBool r.2)
  | IPeek k => r ← peek e hash tb k; Some (r.1, JEntry r.2)
  | ILen => r ← len INDEX (same_gen e) hash tb; Some (r.1, JCount r.2)
  | IIsEmpty => r ← is_empty INDEX (same_gen e) hash tb; Some (r.1, JBool r.2)
  | IScan => r ← iter_sync e hash tb (fun s x => (s ++ [x], true)) []; Some (r.1.1, JEntries r.1.2)
  | IIter => es ← iter_all tb; Some (tb, JEntries es)
  | IRetain p => r ← retain_sync e hash tb (fun (s : unit) x => (s, p x)) tt; Some (r.1, JUnit)
  | IClear => r ← clear_sync e hash tb; Some (r, JUnit)
  | IReserve n => r ← reserve INDEX tb n; Some (r.1, JUnit)
  | IUnreserve i => r ← unreserve INDEX tb i; Some (r, JUnit)
  end.
Definition istep (e : env) hash tb (o : iop) : option (table K V * iout) :=
  r ← icore e hash tb o; tb' ← settle e r.1; Some (tb', r.2).
Fixpoint irun hash tb (os : list (env * iop)) : option (table K V * list iout) :=
  match os with
  | [] => Some (tb, [])
  | o :: os' =>
    r ← istep o.1 hash tb o.2;
    q ← irun hash r.1 os';
    Some (q.1, r.2 :: q.2)
  end.
(** An index created with [with_capacity(capacity)] after a history. *)
Definition run_index hash (capacity : N) (os : list (env * iop)) : option (table K V * list iout) :=
  tb ← new_index capacity; irun hash tb os.
End index_model.
Arguments iop : clear implicits.
Arguments iout : clear implicits.
