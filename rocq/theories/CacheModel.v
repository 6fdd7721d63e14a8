(** HashCache, one thread, and histories of its operations.

    Models src/hash_cache.rs on top of TableModel.v with the bucket kind CACHE.  The asynchronous
    variants execute the same steps; [replace_sync] (which exchanges a key for an equal one) and the
    [Debug] output are not modelled. *)
From Coq Require Import NArith.
From stdpp Require Import prelude list numbers.
From Verif Require CapModel.
From Verif Require Import BucketModel TableModel.
Local Open Scope N_scope.

Section cache_model.
Context {K V : Type} `{EqDecision K}.
Implicit Types tb : table K V.

(** L103: the capacity limit of a cache created without one. *)
Definition DEFAULT_MAXIMUM_CAPACITY : N := 256.
(** [with_capacity_and_hasher] L169-197. *)
Definition cache_maximum (minimum maximum : N) : option N :=
  r ← CapModel.cache_with_capacity minimum maximum; Some r.2.
Definition new_cache (minimum maximum : N) : option (table K V) :=
  m ← cache_maximum minimum maximum; new_table minimum m.

(** L380-384, L1758-1763: eviction, insertion and the update of the recency list. *)
Definition put_bucket sg (b : bucket K V) (h : N) (e : K * V) : option (bucket K V * option (K * V)) :=
  r ← evict_lru_head b;
  q ← insert CACHE sg r.1 h e;
  b' ← update_lru_tail q.1.1 q.1.2;
  Some (b', r.2).

(** [put_sync] L373-387: [inl] is [Ok], [inr] is [Err]. *)
Definition put_sync sg hash tb (k : K) (v : V) : option (table K V * (option (K * V) + (K * V))) :=
  r ← writer CACHE sg hash tb (hash k);
  b ← lock r.1 r.2;
  p ← get_entry_ptr CACHE b k (hash k);
  if is_valid p then Some (r.1, inr (k, v))
  else
    q ← put_bucket sg b (hash k) (k, v);
    tb' ← set_loc r.1 r.2 q.1;
    Some (tb', inl q.2).

(** What the caller does with an [OccupiedEntry]: [None] is [remove_entry] L1563-1566, [Some v] is
    [put] L1633-1635. *)
Definition finish tb (l : loc) (b : bucket K V) (p : eptr) (what : option V) : option (table K V) :=
  match what with
  | None => z ← locked_remove CACHE tb l p; Some z.1
  | Some v => q ← replace_value b p v; set_loc tb l q.1
  end.
(** [get_sync] L636-652, followed by the use of the entry, which may depend on the value found. *)
Definition get_sync sg hash tb (k : K) (f : V -> option V) : option (table K V * option V) :=
  r ← optional_writer CACHE sg hash tb (hash k);
  match r.2 with
  | None => Some (r.1, None)
  | Some l =>
    b ← lock r.1 l;
    p ← get_entry_ptr CACHE b k (hash k);
    if is_valid p then
      e ← get b p;
      b' ← update_lru_tail b p;
      tb1 ← set_loc r.1 l b';
      tb2 ← finish tb1 l b' p (f e.2);
      Some (tb2, Some e.2)
    else Some (r.1, None)
  end.
(** [entry_sync] L259-279, followed by the use of the entry; on a vacant entry [Some v] is
    [VacantEntry::put_entry] L1757-1770.  The result is the value found and the evicted entry. *)
Definition centry_sync sg hash tb (k : K) (f : option V -> option V)
  : option (table K V * (option V * option (K * V))) :=
  r ← writer CACHE sg hash tb (hash k);
  b ← lock r.1 r.2;
  p ← get_entry_ptr CACHE b k (hash k);
  if is_valid p then
    e ← get b p;
    tb' ← finish r.1 r.2 b p (f (Some e.2));
    Some (tb', (Some e.2, None))
  else
    match f None with
    | None => Some (r.1, (None, None))
    | Some v =>
      q ← put_bucket sg b (hash k) (k, v);
      tb' ← set_loc r.1 r.2 q.1;
      Some (tb', (None, q.2))
    end.

(** [eq] L1332-1337. *)
Definition csame_in `{EqDecision V} sg hash (s : option (table K V)) (e : K * V) : option (table K V) * bool :=
  match s with
  | None => (None, false)
  | Some o =>
    match read CACHE sg hash o e.1 with
    | None => (None, false)
    | Some r => (Some r.1, bool_decide (option_map snd r.2 = Some e.2))
    end
  end.
Definition ceq_sync `{EqDecision V} sg hash1 hash2 tb1 tb2 : option (table K V * table K V * bool) :=
  r ← iter_sync CACHE sg hash1 tb1 (csame_in sg hash2) (Some tb2);
  o ← r.1.2;
  if r.2 : bool then
    q ← iter_sync CACHE sg hash2 o (csame_in sg hash1) (Some r.1.1);
    s ← q.1.2;
    Some (s, q.1.1, q.2)
  else Some (r.1.1, o, false).

(** [from_iter] L1278-1290; what [put_sync] returns is dropped. *)
Definition returned_put (r : option (K * V) + (K * V)) : list (K * V) :=
  match r with inl None => [] | inl (Some e) => [e] | inr e => [e] end.
Fixpoint put_all sg hash tb (l : list (K * V)) : option (table K V) :=
  match l with
  | [] => Some tb
  | e :: l' => r ← put_sync sg hash tb e.1 e.2; put_all sg hash (release r.1 (returned_put r.2)) l'
  end.
Definition cache_from_iter sg hash (hint : N * option N) (l : list (K * V)) : option (table K V) :=
  c ← CapModel.capacity_from_size_hint hint.1 hint.2;
  tb ← new_cache hint.1 c;
  put_all sg hash tb l.

(** serde.rs L337-357: the announced length is the end of [capacity_range()]. *)
Definition cserialize sg hash tb : option (table K V * (N * list (K * V))) :=
  r ← iter_sync CACHE sg hash tb (fun s e => (s ++ [e], true)) [];
  Some (r.1.1, ((CapModel.capacity_range (maxcap tb) (mst tb)).2, r.1.2)).
(** serde.rs L302-313: [hint] is [access.size_hint()]. *)
Definition CSERDE_MAX_CAPACITY : N := 2 ^ 24.
Definition cdeserialize sg hash (hint : option N) (l : list (K * V)) : option (table K V) :=
  tb ← new_cache 0 (N.min (match hint with Some n => n | None => 0 end) CSERDE_MAX_CAPACITY);
  put_all sg hash tb l.

(** ** Histories *)
Inductive cop :=
| CPut (k : K) (v : V)
| CGet (k : K) (f : V -> option V)
| CEntry (k : K) (f : option V -> option V)
| CRemoveIf (k : K) (cond : V -> V * bool)
| CRead (k : K)
| CLen
| CCapacity
| CIsEmpty
| CScan
| CRetain (pred : K * V -> V * bool)
| CClear.
Inductive cout :=
| COUnit
| COPut (r : option (K * V) + (K * V))
| COFound (v : option V) (evicted : option (K * V))
| COEntry (e : option (K * V))
| COCount (n : N)
| COBool (b : bool)
| COEntries (l : list (K * V)).

Definition cstep sg hash tb (o : cop) : option (table K V * cout) :=
  match o with
  | CPut k v => r ← put_sync sg hash tb k v; Some (r.1, COPut r.2)
  | CGet k f => r ← get_sync sg hash tb k f; Some (r.1, COFound r.2 None)
  | CEntry k f => r ← centry_sync sg hash tb k f; Some (r.1, COFound r.2.1 r.2.2)
  | CRemoveIf k c => r ← remove_if_sync CACHE sg hash tb k c; Some (r.1, COEntry r.2)
  | CRead k => r ← read CACHE sg hash tb k; Some (r.1, COEntry r.2)
  | CLen => r ← len CACHE sg hash tb; Some (r.1, COCount r.2)
  | CCapacity => Some (tb, COCount (capacity tb))
  | CIsEmpty => r ← is_empty CACHE sg hash tb; Some (r.1, COBool r.2)
  | CScan => r ← iter_sync CACHE sg hash tb (fun s e => (s ++ [e], true)) []; Some (r.1.1, COEntries r.1.2)
  | CRetain p => r ← retain_sync CACHE sg hash tb (fun (s : unit) e => (s, (p e).1, (p e).2)) tt; Some (r.1, COUnit)
  | CClear => r ← clear_sync CACHE sg hash tb; Some (r, COUnit)
  end.
Fixpoint crun sg hash tb (os : list cop) : option (table K V * list cout) :=
  match os with
  | [] => Some (tb, [])
  | o :: os' =>
    r ← cstep sg hash tb o;
    q ← crun sg hash r.1 os';
    Some (q.1, r.2 :: q.2)
  end.
(** A cache created with [with_capacity(minimum, maximum)] after a history. *)
Definition run_cache sg hash (minimum maximum : N) (os : list cop) : option (table K V * list cout) :=
  tb ← new_cache minimum maximum; crun sg hash tb os.
End cache_model.
Arguments cop : clear implicits.
Arguments cout : clear implicits.
