(** HashIndex: what can be done with an [Entry] one after another while it is held, one thread.  The epoch may
    advance between the operations. *)
From Coq Require Import NArith.
From stdpp Require Import prelude list numbers.
From Verif Require Import BucketModel TableModel IndexModel EnModel.
Local Open Scope N_scope.

(** [or_insert_with_key] (and [or_insert], [or_insert_with], [or_default], which are instances of it);
    [OccupiedEntry::update] or, if it is vacant, [VacantEntry::insert_entry]; and looking at the entry.  [and_modify]
    is unsafe and left out. *)
Inductive xop (K V : Type) := XOrInsert (g : K -> V) | XPut (v : V) | XGet.
Arguments XOrInsert {_ _}. Arguments XPut {_ _}. Arguments XGet {_ _}.

Section entry_model.
Context {K V : Type} `{EqDecision K}.
Implicit Types tb : table K V.

(** hash_index.rs [VacantEntry::insert_entry] L1987-1994, then [OccupiedEntry::get] L1658-1660. *)
Definition xfill (e : env) hash tb (l : loc) (k : K) (v : V) : option (table K V * held * V) :=
  b ← lock tb l;
  q ← insert INDEX (same_gen e) b (hash k) (k, v);
  tb' ← set_loc tb l q.1.1;
  b' ← lock (release tb' q.2) l;
  x ← get b' q.1.2;
  Some (release tb' q.2, Occ q.1.2, x.2).
(** [OccupiedEntry::update] L1887-1899: the entry holds the position of the new version afterwards, L1898; then
    [get]. *)
Definition xchange (e : env) tb (l : loc) (p : eptr) (v : V) : option (table K V * held * V) :=
  b ← lock tb l;
  r ← update_index (same_gen e) b p v (epoch e);
  tb' ← set_loc tb l r.1.1;
  b' ← lock (release tb' r.2) l;
  x ← get b' r.1.2;
  Some (release tb' r.2, Occ r.1.2, x.2).
(** [Entry::or_insert_with_key] L1479-1490, [update] and [insert_entry], [get] and [key] L1613-1615. *)
Definition xstep (e : env) hash (k : K) tb (l : loc) (h : held) (o : xop K V) : option (table K V * held * eout K V) :=
  match o, h with
  | XOrInsert g, Occ p => b ← lock tb l; x ← get b p; Some (tb, Occ p, UOr None x.2)
  | XOrInsert g, Vac => r ← xfill e hash tb l k (g k); Some (r.1.1, r.1.2, UOr (Some k) r.2)
  | XPut v, Occ p => r ← xchange e tb l p v; Some (r.1.1, r.1.2, UIns r.2)
  | XPut v, Vac => r ← xfill e hash tb l k v; Some (r.1.1, r.1.2, UIns r.2)
  | XGet, Occ p => b ← lock tb l; x ← get b p; Some (tb, Occ p, UGet (Some x))
  | XGet, Vac => Some (tb, Vac, UGet None)
  end.
Fixpoint xsteps hash (k : K) tb (l : loc) (h : held) (os : list (env * xop K V)) : option (table K V * held * list (eout K V)) :=
  match os with
  | [] => Some (tb, h, [])
  | (e, o) :: os' =>
    r ← xstep e hash k tb l h o;
    q ← xsteps hash k r.1.1 l r.1.2 os';
    Some (q.1, r.2 :: q.2)
  end.
(** [entry_sync] L310-329, the operations, and the end: [remove_entry] L1635-1638, which returns nothing. *)
Definition xchain (e : env) hash tb (k : K) (os : list (env * xop K V)) (e' : env) (fin : efin)
  : option (table K V * list (eout K V)) :=
  w ← writer INDEX (same_gen e) hash tb (hash k);
  b ← lock w.1 w.2;
  p ← get_entry_ptr INDEX b k (hash k);
  r ← xsteps hash k w.1 w.2 (if is_valid p then Occ p else Vac) os;
  match fin, r.1.2 with
  | ERemove, Occ p => tb' ← locked_mark_removed e' r.1.1 w.2 p; Some (tb', r.2)
  | _, _ => Some (r.1.1, r.2)
  end.
End entry_model.
