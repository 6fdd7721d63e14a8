(** HashMap and HashSet with keys that are equal but can be told apart: which of them is kept, and
    [replace_sync].

    A key of the code is a pair of its class [k : K], on which [Hash] and [Eq] depend, and the rest [p : P],
    on which they do not.  The table of TableModel.v looks at a key only through [Hash] and [Eq], so an entry
    with the key [(k, p)] and the value [v] is its entry with the key [k] and the value [(p, v)].  One thread. *)
From Coq Require Import NArith.
From stdpp Require Import prelude list numbers.
From Verif Require Import BucketModel TableModel MapModel.
Local Open Scope N_scope.

Section kp_model.
Context {K P V : Type} `{EqDecision K}.
Implicit Types tb : table K (P * V).

(** The entry with the key and the value as the user sees them. *)
Definition inst (e : K * (P * V)) : K * P * V := (e.1, e.2.1, e.2.2).

(** hash_map.rs [replace_sync] L805-832, hash_cache.rs has the same text.  An [OccupiedEntry] is dropped
    unused (what else is done with it is an operation of its own); a [VacantEntry] is dropped unused
    ([vo = None]) or filled with [insert_entry] L2237-2250 ([vo = Some v]).
    hash_set.rs [replace_sync] L270-282 is the case [vo = Some ()].
    Result: the key that was replaced. *)
Definition replace_sync sg hash tb (k : K) (p : P) (vo : option V) : option (table K (P * V) * option (K * P)) :=
  r ← writer MAP sg hash tb (hash k);
  b ← lock r.1 r.2;
  ptr ← get_entry_ptr MAP b k (hash k);
  if is_valid ptr then
    e ← get b ptr;
    q ← replace_value b ptr (p, e.2.2);
    tb' ← set_loc r.1 r.2 q.1;
    Some (tb', Some (e.1, q.2.1))
  else
    match vo with
    | None => Some (r.1, None)
    | Some v =>
      q ← insert MAP sg b (hash k) (k, (p, v));
      tb' ← set_loc r.1 r.2 q.1.1;
      Some (release tb' q.2, None)
    end.

(** hash_map.rs [entry_sync] L334-352 with the key [(k, p)]: the key goes into the table with a vacant entry
    only; an occupied one keeps its key, and the caller gets at the value [f] is given. *)
Definition entry_kp sg hash tb (k : K) (p : P) (f : option V -> option V) : option (table K (P * V) * option V) :=
  r ← entry_sync sg hash tb k
        (fun x => match x with
                  | Some (p0, v0) => match f (Some v0) with Some v => Some (p0, v) | None => None end
                  | None => match f None with Some v => Some (p, v) | None => None end
                  end);
  Some (r.1, option_map snd r.2).
(** [upsert_sync] L614-622. *)
Definition upsert_kp sg hash tb (k : K) (p : P) (v : V) := entry_kp sg hash tb k p (fun _ => Some v).

Inductive kop :=
| KInsert (k : K) (p : P) (v : V)
| KUpsert (k : K) (p : P) (v : V)
| KReplace (k : K) (p : P) (vo : option V)
| KEntry (k : K) (p : P) (f : option V -> option V)
| KUpdate (k : K) (f : K * P -> V -> V * V)
| KRemoveIf (k : K) (cond : V -> V * bool)
| KRead (k : K)
| KLen
| KScan
| KRetain (pred : K * P -> V -> V * bool)
| KClear
| KReserve (n : N).
Inductive kout :=
| RUnit
| RPair (e : option (K * P * V))
| RValue (v : option V)
| RKey (x : option (K * P))
| RCount (n : N)
| RAll (l : list (K * P * V)).

(** hash_map.rs insert_sync L564, update_sync L672, remove_if_sync L926, read_sync L1054, iter_sync L1164,
    retain_sync L1338: closures see the key of the entry, and only the value by a mutable reference. *)
Definition kstep sg hash tb (o : kop) : option (table K (P * V) * kout) :=
  match o with
  | KInsert k p v => r ← insert_sync MAP sg hash tb k (p, v); Some (r.1, RPair (option_map inst r.2))
  | KUpsert k p v => r ← upsert_kp sg hash tb k p v; Some (r.1, RValue r.2)
  | KReplace k p vo => r ← replace_sync sg hash tb k p vo; Some (r.1, RKey r.2)
  | KEntry k p f => r ← entry_kp sg hash tb k p f; Some (r.1, RValue r.2)
  | KUpdate k f =>
      r ← update_sync MAP sg hash tb k
            (fun k pv => ((pv.1, (f (k, pv.1) pv.2).1), (pv.1, (f (k, pv.1) pv.2).2)));
      Some (r.1, RValue (option_map snd r.2))
  | KRemoveIf k c =>
      r ← remove_if_sync MAP sg hash tb k (fun pv => ((pv.1, (c pv.2).1), (c pv.2).2));
      Some (r.1, RPair (option_map inst r.2))
  | KRead k => r ← read MAP sg hash tb k; Some (r.1, RPair (option_map inst r.2))
  | KLen => r ← len MAP sg hash tb; Some (r.1, RCount r.2)
  | KScan => r ← iter_sync MAP sg hash tb (fun s e => (s ++ [e], true)) []; Some (r.1.1, RAll (map inst r.1.2))
  | KRetain g =>
      r ← retain_sync MAP sg hash tb
            (fun (s : unit) e => (s, (e.2.1, (g (e.1, e.2.1) e.2.2).1), (g (e.1, e.2.1) e.2.2).2)) tt;
      Some (r.1, RUnit)
  | KClear => r ← clear_sync MAP sg hash tb; Some (r, RUnit)
  | KReserve n => r ← reserve MAP tb n; Some (r.1, RUnit)
  end.
Fixpoint krun sg hash tb (os : list kop) : option (table K (P * V) * list kout) :=
  match os with
  | [] => Some (tb, [])
  | o :: os' =>
    r ← kstep sg hash tb o;
    q ← krun sg hash r.1 os';
    Some (q.1, r.2 :: q.2)
  end.
(** A map created with [with_capacity(capacity)] after a history. *)
Definition run_kp sg hash (capacity : N) (os : list kop) : option (table K (P * V) * list kout) :=
  tb ← new_map capacity; krun sg hash tb os.
End kp_model.
Arguments kop : clear implicits.
Arguments kout : clear implicits.
