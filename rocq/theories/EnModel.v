(** HashMap: what can be done with an [Entry] one after another while it is held, one thread. *)
From Coq Require Import NArith.
From stdpp Require Import prelude list numbers.
From Verif Require Import BucketModel TableModel.
Local Open Scope N_scope.

(** [Entry] hash_map.rs L85-93: the position in the locked bucket, or the absence of the key. *)
Inductive held := Occ (p : eptr) | Vac.
(** [and_modify] (and [get_mut] of an occupied entry), [or_insert_with_key] (and [or_insert], [or_insert_with],
    [or_default], which are instances of it), [insert_entry], and looking at the entry. *)
Inductive eop (K V : Type) := EAndModify (f : V -> V) | EOrInsert (g : K -> V) | EInsert (v : V) | EGet.
Arguments EAndModify {_ _}. Arguments EOrInsert {_ _}. Arguments EInsert {_ _}. Arguments EGet {_ _}.
(** What the caller observes: the value its closure got, if it was called; the key its constructor got, if it was
    called, and the value the occupied entry then shows; the value the occupied entry then shows; the entry. *)
Inductive eout (K V : Type) := UMod (seen : option V) | UOr (called : option K) (now : V) | UIns (now : V) | UGet (x : option (K * V)).
Arguments UMod {_ _}. Arguments UOr {_ _}. Arguments UIns {_ _}. Arguments UGet {_ _}.
(** At the end it is dropped, or removed if it is occupied. *)
Inductive efin := EDrop | ERemove.

Section entry_model.
Context {K V : Type} `{EqDecision K}.
Implicit Types tb : table K V.

(** [VacantEntry::insert_entry] L2243-2256; then [OccupiedEntry::get] L1910-1912. *)
Definition fill sg hash tb (l : loc) (k : K) (v : V) : option (table K V * held * V) :=
  b ← lock tb l;
  q ← insert MAP sg b (hash k) (k, v);
  tb' ← set_loc tb l q.1.1;
  b' ← lock (release tb' q.2) l;
  x ← get b' q.1.2;
  Some (release tb' q.2, Occ q.1.2, x.2).
(** [OccupiedEntry::insert] L1957-1959 and [get_mut] L1934-1936: the old and the new value. *)
Definition change tb (l : loc) (p : eptr) (f : V -> V) : option (table K V * V * V) :=
  b ← lock tb l;
  e ← get b p;
  q ← replace_value b p (f e.2);
  tb' ← set_loc tb l q.1;
  b' ← lock tb' l;
  x ← get b' p;
  Some (tb', e.2, x.2).
(** [Entry::and_modify] L1771-1782, [or_insert_with_key] L1723-1734, [insert_entry] L1796-1804, [get] L1910-1912 and
    [key] L1866-1868. *)
Definition estep sg hash (k : K) tb (l : loc) (h : held) (o : eop K V) : option (table K V * held * eout K V) :=
  match o, h with
  | EAndModify f, Occ p => r ← change tb l p f; Some (r.1.1, Occ p, UMod (Some r.1.2))
  | EAndModify f, Vac => Some (tb, Vac, UMod None)
  | EOrInsert g, Occ p => b ← lock tb l; e ← get b p; Some (tb, Occ p, UOr None e.2)
  | EOrInsert g, Vac => r ← fill sg hash tb l k (g k); Some (r.1.1, r.1.2, UOr (Some k) r.2)
  | EInsert v, Occ p => r ← change tb l p (fun _ => v); Some (r.1.1, Occ p, UIns r.2)
  | EInsert v, Vac => r ← fill sg hash tb l k v; Some (r.1.1, r.1.2, UIns r.2)
  | EGet, Occ p => b ← lock tb l; e ← get b p; Some (tb, Occ p, UGet (Some e))
  | EGet, Vac => Some (tb, Vac, UGet None)
  end.
Fixpoint esteps sg hash (k : K) tb (l : loc) (h : held) (os : list (eop K V)) : option (table K V * held * list (eout K V)) :=
  match os with
  | [] => Some (tb, h, [])
  | o :: os' =>
    r ← estep sg hash k tb l h o;
    q ← esteps sg hash k r.1.1 l r.1.2 os';
    Some (q.1, r.2 :: q.2)
  end.
(** [entry_sync] L334-352, the operations, and the end: [remove_entry] L1888-1890. *)
Definition entry_chain sg hash tb (k : K) (os : list (eop K V)) (fin : efin)
  : option (table K V * list (eout K V) * option (K * V)) :=
  w ← writer MAP sg hash tb (hash k);
  b ← lock w.1 w.2;
  p ← get_entry_ptr MAP b k (hash k);
  r ← esteps sg hash k w.1 w.2 (if is_valid p then Occ p else Vac) os;
  match fin, r.1.2 with
  | ERemove, Occ p => z ← locked_remove MAP r.1.1 w.2 p; Some (z.1, r.2, Some z.2)
  | _, _ => Some (r.1.1, r.2, None)
  end.
End entry_model.
