(** HashMap: the entry API, cloning, comparison and collection, and histories of operations.

    Models src/hash_map.rs on top of TableModel.v, one thread.  HashSet (src/hash_set.rs) is a
    HashMap with unit values. *)
From Coq Require Import NArith.
From stdpp Require Import prelude list numbers.
From Verif Require CapModel.
From Verif Require Import BucketModel TableModel.
Local Open Scope N_scope.

Section map_model.
Context {K V : Type} `{EqDecision K}.
Implicit Types tb : table K V.

(** hash_table.rs L1445. *)
Definition map_maximum : N := CapModel.MAXIMUM_CAPACITY_LIMIT.
(** hash_map.rs [with_capacity_and_hasher] L206-227. *)
Definition new_map (capacity : N) : option (table K V) := new_table capacity map_maximum.

(** [entry_sync] L334-352 followed by what the caller does with the entry, as a function of the
    present value: [None] on an occupied entry is [OccupiedEntry::remove_entry] L1893, [Some v] is
    [OccupiedEntry::insert]/[get_mut]; on a vacant entry [None] drops it unused and [Some v] is
    [VacantEntry::insert_entry] L2237-2250.  The result is the value found, which all of these give
    the caller access to. *)
Definition entry_sync sg hash tb (k : K) (f : option V -> option V) : option (table K V * option V) :=
  r ← writer MAP sg hash tb (hash k);
  b ← lock r.1 r.2;
  p ← get_entry_ptr MAP b k (hash k);
  if is_valid p then
    e ← get b p;
    match f (Some e.2) with
    | None => z ← locked_remove MAP r.1 r.2 p; Some (z.1, Some z.2.2)
    | Some v => q ← replace_value b p v; tb' ← set_loc r.1 r.2 q.1; Some (tb', Some q.2)
    end
  else
    match f None with
    | None => Some (r.1, None)
    | Some v =>
      q ← insert MAP sg b (hash k) (k, v);
      tb' ← set_loc r.1 r.2 q.1.1;
      Some (release tb' q.2, None)
    end.

(** [clone] L1536-1543.  The closure of [iter_sync] threads the clone; [None] is an error inside. *)
Definition clone sg hash tb : option (table K V * table K V) :=
  c0 ← new_map (capacity tb);
  r ← iter_sync MAP sg hash tb
        (fun s (e : K * V) => (c ← s; q ← insert_sync MAP sg hash c e.1 e.2; Some q.1, true)) (Some c0);
  c ← r.1.2;
  Some (r.1.1, c).

(** [eq] L1660-1665 of two different maps, each with its own hasher. *)
Definition same_in `{EqDecision V} sg hash (s : option (table K V)) (e : K * V) : option (table K V) * bool :=
  match s with
  | None => (None, false)
  | Some o =>
    match read MAP sg hash o e.1 with
    | None => (None, false)
    | Some r => (Some r.1, bool_decide (option_map snd r.2 = Some e.2))
    end
  end.
Definition eq_sync `{EqDecision V} sg hash1 hash2 tb1 tb2 : option (table K V * table K V * bool) :=
  r ← iter_sync MAP sg hash1 tb1 (same_in sg hash2) (Some tb2);
  o ← r.1.2;
  if r.2 : bool then
    q ← iter_sync MAP sg hash2 o (same_in sg hash1) (Some r.1.1);
    s ← q.1.2;
    Some (s, q.1.1, q.2)
  else Some (r.1.1, o, false).

(** [from_iter] L1613-1624; [hint] is the iterator's [size_hint].  The replaced values are dropped. *)
Fixpoint upsert_all sg hash tb (l : list (K * V)) : option (table K V) :=
  match l with
  | [] => Some tb
  | e :: l' =>
    r ← upsert_sync MAP sg hash tb e.1 e.2;
    upsert_all sg hash (release r.1 (match r.2 with Some v => [(e.1, v)] | None => [] end)) l'
  end.
Definition from_iter sg hash (hint : N * option N) (l : list (K * V)) : option (table K V) :=
  c ← CapModel.capacity_from_size_hint hint.1 hint.2;
  tb ← new_map c;
  upsert_all sg hash tb l.

(** serde.rs L81-104: the announced length and the entries written, in order, by a serializer that
    does not fail. *)
Definition serialize sg hash tb : option (table K V * (N * list (K * V))) :=
  n ← len MAP sg hash tb;
  r ← iter_sync MAP sg hash n.1 (fun s e => (s ++ [e], true)) [];
  Some (r.1.1, (n.2, r.1.2)).
(** serde.rs L47-60: [hint] is [access.size_hint()]. *)
Definition SERDE_MAX_CAPACITY : N := 2 ^ 24.
Definition deserialize sg hash (hint : option N) (l : list (K * V)) : option (table K V) :=
  tb ← new_map (N.min (match hint with Some n => n | None => 0 end) SERDE_MAX_CAPACITY);
  upsert_all sg hash tb l.

(** HashSet: hash_set.rs [from_iter] L875-885 inserts, so the first of several equal keys stays. *)
Fixpoint insert_all sg hash tb (l : list (K * V)) : option (table K V) :=
  match l with
  | [] => Some tb
  | e :: l' =>
    r ← insert_sync MAP sg hash tb e.1 e.2;
    insert_all sg hash (release r.1 (match r.2 with Some e => [e] | None => [] end)) l'
  end.
Definition set_from_iter sg hash (hint : N * option N) (l : list (K * V)) : option (table K V) :=
  c ← CapModel.capacity_from_size_hint hint.1 hint.2;
  tb ← new_map c;
  insert_all sg hash tb l.

(** ** Histories *)
Inductive mop :=
| MInsert (k : K) (v : V)
| MUpsert (k : K) (v : V)
| MUpdate (k : K) (f : K -> V -> V * V)
| MRemoveIf (k : K) (cond : V -> V * bool)
| MEntry (k : K) (f : option V -> option V)
| MRead (k : K)
| MLen
| MIsEmpty
| MScan
| MRetain (pred : K * V -> V * bool)
| MClear
| MReserve (n : N)
| MUnreserve (i : nat).
Inductive mout :=
| OUnit
| OEntry (e : option (K * V))
| OValue (v : option V)
| OCount (n : N)
| OBool (b : bool)
| OEntries (l : list (K * V)).

(** [MUpdate]'s closure returns the new value and a result (here again a value). [MScan] collects all
    entries with [iter_sync]. *)
Definition mstep sg hash tb (o : mop) : option (table K V * mout) :=
  match o with
  | MInsert k v => r ← insert_sync MAP sg hash tb k v; Some (r.1, OEntry r.2)
  | MUpsert k v => r ← upsert_sync MAP sg hash tb k v; Some (r.1, OValue r.2)
  | MUpdate k f => r ← update_sync MAP sg hash tb k f; Some (r.1, OValue r.2)
  | MRemoveIf k c => r ← remove_if_sync MAP sg hash tb k c; Some (r.1, OEntry r.2)
  | MEntry k f => r ← entry_sync sg hash tb k f; Some (r.1, OValue r.2)
  | MRead k => r ← read MAP sg hash tb k; Some (r.1, OEntry r.2)
  | MLen => r ← len MAP sg hash tb; Some (r.1, OCount r.2)
  | MIsEmpty => r ← is_empty MAP sg hash tb; Some (r.1, OBool r.2)
  | MScan => r ← iter_sync MAP sg hash tb (fun s e => (s ++ [e], true)) []; Some (r.1.1, OEntries r.1.2)
  | MRetain p => r ← retain_sync MAP sg hash tb (fun (s : unit) e => (s, (p e).1, (p e).2)) tt; Some (r.1, OUnit)
  | MClear => r ← clear_sync MAP sg hash tb; Some (r, OUnit)
  | MReserve n => r ← reserve MAP tb n; Some (r.1, OUnit)
  | MUnreserve i => r ← unreserve MAP tb i; Some (r, OUnit)
  end.
Fixpoint mrun sg hash tb (os : list mop) : option (table K V * list mout) :=
  match os with
  | [] => Some (tb, [])
  | o :: os' =>
    r ← mstep sg hash tb o;
    q ← mrun sg hash r.1 os';
    Some (q.1, r.2 :: q.2)
  end.
(** A map created with [with_capacity(capacity)] after a history. *)
Definition run_map sg hash (capacity : N) (os : list mop) : option (table K V * list mout) :=
  tb ← new_map capacity; mrun sg hash tb os.
End map_model.
Arguments mop : clear implicits.
Arguments mout : clear implicits.
